(** A program of Frac calls that fails no assertion does the same without them. *)
From Coq Require Import Lia.
From Verif Require Import Base IntModel IntSpec IntBasics IntAddSub IntMul IntDiv IntMod IOModel FracModel FracSpec FracProofs PropsFrac FracHistory CatchModel ElemModel ElemSpec ElemProofs ElemInst VecModel MatModel
  LeaveModel SimSpec SimProofs LinSpec LinCalls LinInst ReleaseModel ReleaseSpec ReleaseProofs ReleaseProofs2 FracReleaseModel FracReleaseProofs PropsFracRelease ReleaseCallsModel FracReleaseCallsModel FracReleaseCallsSpec FracReleaseCallsProofs
  ContReleaseModel ContReleaseSpec ContReleaseInst LinReleaseModel LinReleaseProofs AgreeProofs LinAgreeProofs LinFracAgreeProofs.
Local Open Scope Z_scope.

Lemma one_agrees : agrees (same wf) (Int_of_int64 1 0) (Int_of_int64 1 0).
Proof. apply (same_refl wf). apply canonical_wf, one_canonical. Qed.
Lemma exp_agrees f : forall x y, wf x -> wf y -> agrees (same wf) (exponentiate f x y) (exponentiate_nd f x y).
Proof.
  induction f as [|f IH]; intros x y Wx Wy; cbn [exponentiate exponentiate_nd]; [exact I|].
  eapply agrees_bind; [apply agrees_refl|]. intros z z' <-. destruct z; [apply (same_refl wf), canonical_wf, one_canonical|].
  eapply agrees_bind; [apply agrees_refl|]. intros z z' <-. destruct z; [apply (same_refl wf), Wx|].
  eapply agrees_bind; [apply agrees_refl|]. intros z z' <-. destruct z.
  - eapply agrees_bind; [apply one_agrees|]. intros o o' [-> Wo]. eapply agrees_bind; [apply int_sub_agrees; auto|]. intros r r' [-> Wr].
    eapply agrees_bind; [apply IH; auto|]. intros a a' [-> Wa]. apply int_mul_agrees; auto.
  - destruct (divide_by_int_ok y 2 false Wy) as (h & -> & Wh & _); [unfold INT32_MAX; lia|]. cbn [bind].
    eapply agrees_bind; [apply IH; auto|]. intros a a' [-> Wa]. apply int_mul_agrees; auto.
Qed.
Lemma pow_agrees x y : wf x -> wf y -> agrees (same wf) (op_pow x y) (op_pow_nd x y).
Proof. apply exp_agrees. Qed.
Ltac pow := eapply agrees_bind; [apply pow_agrees; auto|]; intros ? ? [-> ?].
Ltac sum := eapply agrees_bind; [first [apply int_add_agrees|apply int_sub_agrees]; auto|]; intros ? ? [-> ?].

(** *** New objects *)
Lemma recip_agrees x : wfrac x -> agrees (same wfrac) (reciprocal x) (reciprocal_nd x).
Proof. intros [? ?]. apply make_agrees; auto. Qed.
Lemma bin_agrees o x y : wfrac x -> wfrac y -> agrees (same wfrac) (Fbin o x y) (Fbin_nd o x y).
Proof. destruct o; [apply F_add_agrees|apply F_sub_agrees|apply F_mul_agrees|apply F_div_agrees]. Qed.
Lemma left_agrees o a x : wf a -> wfrac x -> agrees (same wfrac) (IFbin o a x) (IFbin_nd o a x).
Proof.
  intros Wa [? ?]. destruct o; cbn [IFbin IFbin_nd]; unfold IF_add, IF_sub, IF_mul, IF_div, IF_add_nd, IF_sub_nd, IF_mul_nd, IF_div_nd; mul; try sum; apply make_agrees; auto.
Qed.
Lemma right_agrees o x a : wf a -> wfrac x -> agrees (same wfrac) (FIbin o x a) (FIbin_nd o x a).
Proof.
  intros Wa [? ?]. destruct o; cbn [FIbin FIbin_nd]; unfold FI_add, FI_sub, FI_mul, FI_div, FI_add_nd, FI_sub_nd, FI_mul_nd, FI_div_nd; mul; try sum; apply make_agrees; auto.
Qed.
Lemma F_pow_agrees x a : wfrac x -> wf a -> agrees (same wfrac) (F_pow x a) (F_pow_nd x a).
Proof.
  intros [? ?] Wa. unfold F_pow, F_pow_nd. destruct (is_negative a).
  - eapply agrees_bind; [apply negate_agrees, Wa|]. intros n n' [-> Wn]. pow. pow. apply make_agrees; auto.
  - pow. pow. apply make_agrees; auto.
Qed.
Lemma parse_agrees t : agrees (same wf) (Int_of_string t) (Int_of_string t).
Proof. destruct (parse_ok t) as [(x & -> & C)| ->]; [apply (same_refl wf), canonical_wf, C|reflexivity]. Qed.
Lemma string_agrees t : agrees (same wfrac) (Frac_of_string t) (Frac_of_string_nd t).
Proof.
  unfold Frac_of_string, Frac_of_string_nd. destruct t as [|c t]; [apply (same_refl wfrac); split; apply canonical_wf; [apply canonical_zero|apply one_canonical]|].
  eapply (agrees_bind (same wfrac)).
  - destruct (find_slash (c :: t)) as [[l r]|].
    + eapply agrees_bind; [apply parse_agrees|]. intros n n' [-> Wn]. eapply agrees_bind; [apply parse_agrees|]. intros d d' [-> Wd]. apply (same_refl wfrac). split; auto.
    + eapply agrees_bind; [apply parse_agrees|]. intros n n' [-> Wn]. eapply agrees_bind; [apply one_agrees|]. intros d d' [-> Wd]. apply (same_refl wfrac). split; auto.
  - intros f f' [-> Wf]. eapply agrees_bind; [apply agrees_refl|]. intros z z' <-. destruct z; [reflexivity|]. apply result_agrees, normalize_tracks, Wf.
Qed.
Lemma lt_agrees x y : wfrac x -> wfrac y -> agrees eq (F_lt x y) (F_lt_nd x y).
Proof. intros [? ?] [? ?]. unfold F_lt, F_lt_nd. mul. mul. apply agrees_refl. Qed.
Lemma cmp_agrees c x y : wfrac x -> wfrac y -> agrees eq (Fcmp c x y) (Fcmp_nd c x y).
Proof.
  intros Wx Wy. destruct c; cbn [Fcmp Fcmp_nd]; try apply agrees_refl; try (apply lt_agrees; auto).
  - eapply agrees_bind; [apply lt_agrees; auto|]. intros z z' <-. apply agrees_refl.
  - eapply agrees_bind; [apply lt_agrees; auto|]. intros z z' <-. apply agrees_refl.
Qed.

(** *** In place *)
Lemma asg_tracks o x y : wfrac x -> opt_all wfrac y -> tracks wfrac (Fasg o x y) (Fasg_nd o x y).
Proof.
  intros Wx Wy. destruct o; cbn [Fasg Fasg_nd]; [apply addsub_tracks; auto; exact int_add_agrees|apply addsub_tracks; auto; exact int_sub_agrees|apply F_mulA_tracks; auto|apply F_divA_tracks; auto].
Qed.
Lemma step_top op op' x p : in_step wf op op' -> wfrac x -> wf p -> tracks wfrac (set_top x (op (top x) (Some p))) (put_top x (op' (top x) (Some p))).
Proof.
  intros S W Wp. specialize (S (top x) (Some p) (proj1 W) Wp). destruct x as [t b]. cbn [top bot] in *. unfold put_top.
  destruct (op t (Some p)) as [r|e| | |]; try contradiction; cbn [set_top fail_with]; try (intros D; cbn in D; congruence).
  - destruct S as [Wr ->]. apply tracks_refl. split; auto. apply W.
  - rewrite S. apply tracks_refl. exact W.
Qed.
Lemma sum_tracks o x a : wfrac x -> wf a ->
  tracks wfrac (fthen (set_top x (p <- op_mul (bot x) a ;; (match o with Plus => addA Int_ops | Minus => subA Int_ops end) (top x) (Some p))) normalize) (FI_sum_left (sum_assign o) x a).
Proof.
  intros W Wa. unfold FI_sum_left. pose proof (int_mul_agrees (bot x) a (proj2 W) Wa) as M.
  destruct (op_mul (bot x) a) as [p|e| | |], (op_mul_nd (bot x) a) as [p'|e'| | |]; cbn in M; try contradiction; cbn [bind set_top fail_with fthen]; try (intros D; cbn in D; congruence).
  - destruct M as [-> Wp]. apply fthen_tracks; [|exact normalize_tracks]. apply (step_top _ _ x p (sum_step o)); auto.
  - subst. apply tracks_refl, W.
  - apply tracks_refl, W.
  - apply tracks_refl, W.
Qed.
Lemma int_asg_tracks o x a : wfrac x -> wf a -> tracks wfrac (FIasg o x a) (FIasg_left o x a).
Proof.
  intros W Wa. destruct o; cbn [FIasg FIasg_left FIasg_nd].
  - exact (sum_tracks Plus x a W Wa).
  - exact (sum_tracks Minus x a W Wa).
  - unfold FI_mul_assign, FI_mul_assign_nd. apply fthen_tracks; [|exact normalize_tracks]. apply top_tracks; auto. apply int_mulA_agrees; [apply W|exact Wa].
  - unfold FI_div_assign, FI_div_assign_nd. apply fthen_tracks; [|exact normalize_tracks]. apply bot_tracks; auto. apply int_mulA_agrees; [apply W|exact Wa].
Qed.
Lemma pow_top x e : wfrac x -> wf e -> tracks wfrac (set_top x (pow_assign (top x) (Some e))) (put_top x (pow_assign_nd (top x) (Some e))).
Proof.
  intros W We. pose proof (pow_agrees (top x) e (proj1 W) We) as M. destruct x as [t b]. unfold pow_assign, pow_assign_nd, put_top. cbn [rd top bot] in *.
  destruct (op_pow t e) as [p|ex| | |], (op_pow_nd t e) as [p'|ex'| | |]; cbn in M; try contradiction; cbn; try (intros D; cbn in D; congruence).
  - destruct M as [-> Wp]. apply tracks_refl. split; auto. apply W.
  - subst. apply tracks_refl, W.
  - apply tracks_refl, W.
  - apply tracks_refl, W.
Qed.
Lemma pow_bot x e : wfrac x -> wf e -> tracks wfrac (set_bot x (pow_assign (bot x) (Some e))) (put_bot x (pow_assign_nd (bot x) (Some e))).
Proof.
  intros W We. pose proof (pow_agrees (bot x) e (proj2 W) We) as M. destruct x as [t b]. unfold pow_assign, pow_assign_nd, put_bot. cbn [rd top bot] in *.
  destruct (op_pow b e) as [p|ex| | |], (op_pow_nd b e) as [p'|ex'| | |]; cbn in M; try contradiction; cbn; try (intros D; cbn in D; congruence).
  - destruct M as [-> Wp]. apply tracks_refl. split; auto. apply W.
  - subst. apply tracks_refl, W.
  - apply tracks_refl, W.
  - apply tracks_refl, W.
Qed.
Lemma pow_asg_tracks x a : wfrac x -> wf a -> tracks wfrac (F_pow_assign x a) (F_pow_assign_nd x a).
Proof.
  intros W Wa. unfold F_pow_assign, F_pow_assign_nd.
  assert (H : agrees (same wf) (if is_negative a then op_neg a else Ok a) (if is_negative a then op_neg a else Ok a)) by (destruct (is_negative a); [apply negate_agrees, Wa|apply (same_refl wf), Wa]).
  destruct (if is_negative a then op_neg a else Ok a) as [e|e| | |]; try (apply tracks_refl; exact W). destruct H as [_ We].
  apply fthen_tracks; [apply pow_bot; auto|]. intros f Wf. apply fthen_tracks; [apply pow_top; auto|exact normalize_tracks].
Qed.

(** *** Statements and programs *)
Lemma new_same st d m m' : agrees (same wfrac) m m' -> try_new st d m = Abort \/ try_new st d m' = try_new st d m.
Proof. intros H. destruct m, m'; cbn in *; try contradiction; auto. - destruct H as [-> _]. auto. - subst. auto. Qed.
Lemma place_same st d p p' : tracks wfrac p p' -> try_in_place st d p = Abort \/ try_in_place st d p' = try_in_place st d p.
Proof.
  intros H. unfold tracks in H. destruct p as [f m]. cbn [fst snd] in H. destruct m; try (left; reflexivity); right; (destruct H as [-> _]; [discriminate|reflexivity]).
Qed.
Lemma statement_same st s : all_wfrac st -> int_operands s -> cexec st s = Abort \/ nexec st s = cexec st s.
Proof.
  intros W O. destruct s as [[]|c a b]; cbn [cexec nexec int_operands] in *; try (right; reflexivity).
  - apply new_same. apply make_agrees; apply O.
  - apply new_same, string_agrees.
  - apply new_same, recip_agrees, W.
  - apply new_same, bin_agrees; apply W.
  - apply new_same, left_agrees; auto.
  - apply new_same, right_agrees; auto.
  - apply new_same, F_pow_agrees; auto.
  - apply place_same, asg_tracks; auto. destruct (Nat.eqb _ _); cbn; auto.
  - apply place_same, int_asg_tracks; auto.
  - apply place_same, pow_asg_tracks; auto.
  - pose proof (cmp_agrees c (st a) (st b) (W a) (W b)) as H. destruct (Fcmp c (st a) (st b)), (Fcmp_nd c (st a) (st b)); cbn in H; try contradiction; subst; auto.
Qed.
Theorem frac_program_same p : forall st, all_wfrac st -> Forall int_operands p -> crun st p = Abort \/ crun st p = nrun st p.
Proof.
  induction p as [|s p IH]; intros st W O; [right; reflexivity|]. inversion O as [|? ? O1 O2]; subst. cbn [crun nrun].
  destruct (statement_same st s W O1) as [E|E]; rewrite ?E; [left; reflexivity|].
  destruct (call_goes st s W O1) as (st' & ev & E' & W' & _). rewrite <- E, E'. cbn [bind fst snd].
  destruct (IH st' W' O2) as [E2|E2]; rewrite E2; [left; reflexivity|right; reflexivity].
Qed.
Theorem frac_program_does p st : all_wfrac st -> Forall int_operands p ->
  crun st p = Abort \/ exists st' evs, crun st p = Ok (st', evs) /\ nrun st p = Ok (st', evs) /\ all_wfrac st' /\ prun (prs st) p evs (prs st').
Proof.
  intros W O. destruct (frac_program_same p st W O) as [E|E]; [left; exact E|]. destruct (program_goes p st W O) as (st' & evs & E' & H). right. exists st', evs. rewrite E. auto.
Qed.
Lemma nrun_app p q : forall st, nrun st (p ++ q) = a <- nrun st p ;; b <- nrun (fst a) q ;; Ok (fst b, snd a ++ snd b).
Proof.
  induction p as [|s p IH]; intros st; cbn [app nrun].
  - cbn [bind fst snd app]. destruct (nrun st q) as [[s l]|e| | |]; reflexivity.
  - destruct (nexec st s) as [[st' ev]|e| | |]; cbn [bind fst snd]; auto. rewrite IH. destruct (nrun st' p) as [[s1 l]|e| | |]; cbn [bind fst snd]; auto.
    destruct (nrun s1 q) as [[s2 l2]|e| | |]; reflexivity.
Qed.
Theorem frac_program_until p q st s l : all_wfrac st -> Forall int_operands p -> crun st p = Ok (s, l) -> nrun st (p ++ q) = b <- nrun s q ;; Ok (fst b, l ++ snd b).
Proof. intros W O E. destruct (frac_program_same p st W O) as [E'|E']; [congruence|]. rewrite nrun_app, <- E', E. reflexivity. Qed.
