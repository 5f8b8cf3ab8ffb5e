(** Basic lemmas: base-B numerals, canonical form, comparison, negation. *)
From Verif Require Import Base IntModel IntSpec.
From Coq Require Import ZifyBool.
Ltac splits := repeat match goal with |- _ /\ _ => split end.
Ltac ldiv := Z.to_euclidean_division_equations; lia.

Arguments Z.mul : simpl never.
Arguments Z.add : simpl never.
Arguments Z.sub : simpl never.
Arguments Z.pow : simpl never.
Arguments Z.quot : simpl never.
Arguments Z.rem : simpl never.
Arguments Z.div : simpl never.
Arguments Z.modulo : simpl never.

(** powers of the radix *)
Definition pw (n : nat) : Z := B ^ Z.of_nat n.
Lemma pw_0 : pw 0 = 1. Proof. reflexivity. Qed.
Lemma pw_S n : pw (S n) = B * pw n.
Proof. unfold pw. rewrite Nat2Z.inj_succ, Z.pow_succ_r by lia. reflexivity. Qed.
Lemma pw_pos n : 0 < pw n.
Proof. unfold pw. apply Z.pow_pos_nonneg; lia. Qed.
Lemma pw_add n m : pw (n + m) = pw n * pw m.
Proof. unfold pw. rewrite Nat2Z.inj_add, Z.pow_add_r by lia. reflexivity. Qed.
Lemma pw_ge_S n : B <= pw (S n).
Proof. rewrite pw_S. pose proof (pw_pos n). nia. Qed.
Lemma pw_le n m : (n <= m)%nat -> pw n <= pw m.
Proof. intros H. unfold pw. apply Z.pow_le_mono_r; lia. Qed.

(** machine arithmetic *)
Lemma i32_ok z : INT32_MIN <= z <= INT32_MAX -> i32 z = Ok z.
Proof. intros H. unfold i32, in_int32. replace ((INT32_MIN <=? z) && (z <=? INT32_MAX)) with true; [reflexivity|]. unfold INT32_MIN, INT32_MAX in *. lia. Qed.
Lemma i64_ok z : INT64_MIN <= z <= INT64_MAX -> i64 z = Ok z.
Proof. intros H. unfold i64, in_int64. replace ((INT64_MIN <=? z) && (z <=? INT64_MAX)) with true; [reflexivity|]. unfold INT64_MIN, INT64_MAX in *. lia. Qed.
Lemma abs32_ok v : INT32_MIN < v <= INT32_MAX -> abs32 v = Ok (Z.abs v).
Proof.
  intros H. unfold abs32. destruct (Z.ltb_spec v 0).
  - rewrite i32_ok by (unfold INT32_MIN, INT32_MAX in *; lia). f_equal. lia.
  - f_equal. lia.
Qed.
Lemma abs32_0 : abs32 0 = Ok 0. Proof. reflexivity. Qed.
Lemma to_int32_id z : INT32_MIN <= z <= INT32_MAX -> to_int32 z = z.
Proof. intros H. unfold to_int32, INT32_MIN, INT32_MAX in *. ldiv. Qed.

(** base-B numerals *)
Lemma bins_val_app a b : bins_val (a ++ b) = bins_val a + pw (length a) * bins_val b.
Proof.
  induction a as [|x a IH]; cbn [app bins_val length].
  - rewrite pw_0. lia.
  - rewrite IH, pw_S. lia.
Qed.
Lemma bins_val_repeat n : bins_val (repeat 0 n) = 0.
Proof. induction n; cbn [repeat bins_val]; lia. Qed.
Lemma digit_ok_0 : digit_ok 0. Proof. unfold digit_ok; lia. Qed.
Lemma Forall_repeat0 n : Forall digit_ok (repeat 0 n).
Proof. induction n; cbn; constructor; auto using digit_ok_0. Qed.
Lemma bins_val_bound l : Forall digit_ok l -> 0 <= bins_val l < pw (length l).
Proof.
  induction 1 as [|b l Hb Hl IH]; cbn [bins_val length].
  - rewrite pw_0. lia.
  - rewrite pw_S. unfold digit_ok in Hb. lia.
Qed.
Lemma bins_val_nonneg l : Forall digit_ok l -> 0 <= bins_val l.
Proof. intros H. apply bins_val_bound in H. lia. Qed.

Lemma list_snoc {A} (l : list A) (d : A) : l <> [] -> l = removelast l ++ [last l d].
Proof. apply app_removelast_last. Qed.

Lemma length_snoc {A} (l : list A) : l <> [] -> length l = S (length (removelast l)).
Proof.
  intros H. destruct (exists_last H) as [l' [a ->]].
  rewrite removelast_last, app_length. cbn. lia.
Qed.

Lemma Forall_removelast (P : Z -> Prop) l : Forall P l -> Forall P (removelast l).
Proof.
  intros H. destruct l as [|a l]; [constructor|].
  rewrite (list_snoc (a :: l) 0) in H by discriminate.
  apply Forall_app in H. apply H.
Qed.
Lemma Forall_last l : l <> [] -> Forall digit_ok l -> digit_ok (last l 0).
Proof.
  intros Hn H. rewrite (list_snoc l 0) in H by assumption.
  apply Forall_app in H as [_ H]. inversion H; assumption.
Qed.

Lemma bins_val_last l : l <> [] ->
  bins_val l = bins_val (removelast l) + pw (length (removelast l)) * last l 0.
Proof.
  intros H. rewrite (list_snoc l 0) at 1 by assumption.
  rewrite bins_val_app. cbn [bins_val]. lia.
Qed.

Lemma bins_val_0_iff l : Forall digit_ok l -> bins_val l = 0 <-> Forall (fun b => b = 0) l.
Proof.
  induction 1 as [|b l Hb Hl IH]; cbn [bins_val].
  - split; [constructor|reflexivity].
  - pose proof (bins_val_nonneg l Hl). unfold digit_ok in Hb. split.
    + intros E. assert (bins_val l = 0) by lia. constructor; [lia|]. apply IH; assumption.
    + intros F. inversion F; subst. apply IH in H3. lia.
Qed.

(** canonical form *)
Lemma trimmed_lower l : Forall digit_ok l -> trimmed l -> (length l > 1)%nat -> pw (length l - 1) <= bins_val l.
Proof.
  intros Hd [Hn Ht] Hl. specialize (Ht Hl).
  rewrite bins_val_last by assumption.
  rewrite (length_snoc l Hn). replace (S (length (removelast l)) - 1)%nat with (length (removelast l)) by lia.
  pose proof (bins_val_nonneg _ (Forall_removelast _ _ Hd)).
  pose proof (Forall_last _ Hn Hd) as Hlast. unfold digit_ok in Hlast.
  pose proof (pw_pos (length (removelast l))). nia.
Qed.

Lemma trimmed_single b : trimmed [b].
Proof. split; [discriminate|]. cbn. lia. Qed.

Lemma trimmed_app_nz l b : b <> 0 -> trimmed (l ++ [b]).
Proof.
  intros H. split.
  - destruct l; discriminate.
  - intros _. rewrite last_last. assumption.
Qed.

Lemma trimmed_cons b l : trimmed l -> bins_val l <> 0 -> trimmed (b :: l).
Proof.
  intros [Hn Ht] Hv. split; [discriminate|]. intros _.
  destruct l as [|c l]; [congruence|].
  change (last (b :: c :: l) 0) with (last (c :: l) 0).
  destruct l as [|d l].
  - cbn in *. lia.
  - apply Ht. cbn. lia.
Qed.

Lemma trimmed_repeat n l : trimmed l -> bins_val l <> 0 -> trimmed (repeat 0 n ++ l).
Proof.
  intros Ht Hv. induction n; cbn [repeat app]; [assumption|].
  apply trimmed_cons; [assumption|].
  rewrite bins_val_app, bins_val_repeat. pose proof (pw_pos (length (repeat 0 n))). nia.
Qed.

(** uniqueness of trimmed numerals *)
Lemma bins_val_inj l1 : forall l2, Forall digit_ok l1 -> Forall digit_ok l2 ->
  length l1 = length l2 -> bins_val l1 = bins_val l2 -> l1 = l2.
Proof.
  induction l1 as [|a l1 IH]; intros [|b l2] H1 H2 Hl Hv; cbn in Hl; try lia; [reflexivity|].
  inversion H1; inversion H2; subst. cbn [bins_val] in Hv. unfold digit_ok in *.
  assert (bins_val l1 = bins_val l2) by lia.
  f_equal; [lia|]. apply IH; auto; lia.
Qed.

Lemma trimmed_length_le l1 l2 : Forall digit_ok l1 -> Forall digit_ok l2 -> trimmed l1 -> trimmed l2 ->
  bins_val l1 <= bins_val l2 -> (length l1 <= length l2)%nat.
Proof.
  intros H1 H2 T1 T2 Hv.
  destruct (le_lt_dec (length l1) (length l2)) as [|Hlt]; [assumption|exfalso].
  assert (length l2 > 0)%nat by (destruct T2 as [Hn _]; destruct l2; [congruence|cbn; lia]).
  pose proof (trimmed_lower l1 H1 T1 ltac:(lia)) as L.
  pose proof (bins_val_bound l2 H2) as U.
  pose proof (pw_le (length l2) (length l1 - 1) ltac:(lia)). lia.
Qed.

Lemma trimmed_unique l1 l2 : Forall digit_ok l1 -> Forall digit_ok l2 -> trimmed l1 -> trimmed l2 ->
  bins_val l1 = bins_val l2 -> l1 = l2.
Proof.
  intros H1 H2 T1 T2 Hv. apply bins_val_inj; auto.
  pose proof (trimmed_length_le l1 l2 H1 H2 T1 T2 ltac:(lia)).
  pose proof (trimmed_length_le l2 l1 H2 H1 T2 T1 ltac:(lia)). lia.
Qed.

(** absolute value *)
Definition aval (x : Int) : Z := bins_val (bins x).
Lemma aval_nonneg x : wf x -> 0 <= aval x.
Proof. intros [_ H]. apply bins_val_nonneg, H. Qed.
Lemma val_aval x : val x = if negative x then - aval x else aval x.
Proof. reflexivity. Qed.
Lemma abs_val x : wf x -> Z.abs (val x) = aval x.
Proof. intros H. pose proof (aval_nonneg x H). rewrite val_aval. destruct (negative x); lia. Qed.

Lemma canonical_wf x : canonical x -> wf x. Proof. intros H; apply H. Qed.
Lemma canonical_trimmed x : canonical x -> trimmed (bins x). Proof. intros H; apply H. Qed.
#[export] Hint Resolve canonical_wf canonical_trimmed : core.

Lemma canonical_neg_iff x : canonical x -> (negative x = true <-> val x < 0).
Proof.
  intros [Hw [Ht Hs]]. pose proof (aval_nonneg x Hw). rewrite val_aval in *.
  destruct (negative x); split; intros; try congruence; lia.
Qed.
Lemma canonical_neg_eq x : canonical x -> negative x = (val x <? 0).
Proof.
  intros H. pose proof (canonical_neg_iff x H) as I. destruct (negative x).
  - symmetry. apply Z.ltb_lt. apply I. reflexivity.
  - symmetry. apply Z.ltb_ge. destruct (Z.lt_ge_cases (val x) 0) as [L|]; [|lia].
    apply I in L. discriminate.
Qed.

Theorem canonical_unique_lemma x y : canonical x -> canonical y -> val x = val y -> x = y.
Proof.
  intros Hx Hy Hv.
  assert (negative x = negative y) by (rewrite (canonical_neg_eq x Hx), (canonical_neg_eq y Hy), Hv; reflexivity).
  destruct x as [bx nx], y as [by_ ny]. cbn in H. subst ny.
  f_equal. destruct Hx as [[_ Hx] [Tx _]], Hy as [[_ Hy] [Ty _]]. cbn in *.
  apply trimmed_unique; auto. unfold val in Hv. cbn in Hv. destruct nx; lia.
Qed.

Lemma mk_canonical l n : Forall digit_ok l -> trimmed l -> (n = true -> bins_val l <> 0) -> canonical (mkInt l n).
Proof.
  intros Hd Ht Hn. split; [|split].
  - split; [apply Ht|assumption].
  - assumption.
  - intros E. cbn in E. subst n. unfold val. cbn. specialize (Hn eq_refl). lia.
Qed.

Lemma canonicalb_spec x : canonicalb x = true -> canonical x.
Proof.
  destruct x as [l n]. unfold canonicalb, wfb. cbn [bins negative]. intros H.
  assert (Forall digit_ok l).
  { apply Forall_forall. intros b Hb.
    assert (forallb digit_okb l = true) as F by (destruct (forallb digit_okb l); [reflexivity| lia]).
    rewrite forallb_forall in F. apply F in Hb. unfold digit_okb in Hb. unfold digit_ok. lia. }
  apply mk_canonical; auto.
  - split; [destruct l; [discriminate|discriminate]|]. intros Hl. lia.
  - intros ->. lia.
Qed.

(** equality with zero *)
Lemma forallb_zero l : Forall digit_ok l -> forallb (fun b => b =? 0) l = (bins_val l =? 0).
Proof.
  intros H. apply Bool.eq_iff_eq_true. rewrite forallb_forall, Z.eqb_eq, bins_val_0_iff by assumption.
  rewrite Forall_forall. split; intros F b Hb; specialize (F b Hb); lia.
Qed.

Lemma equals_int32_0 x : wf x -> equals_int32 x 0 = Ok (aval x =? 0).
Proof.
  intros [Hn Hd]. unfold equals_int32. rewrite abs32_0. cbn [bind].
  destruct (bins x) as [|b0 l0] eqn:E; [congruence|]. rewrite <- E in *. clear b0 l0 E.
  rewrite forallb_zero by (apply Forall_removelast; assumption).
  unfold aval. rewrite (bins_val_last (bins x)) by assumption.
  pose proof (bins_val_nonneg _ (Forall_removelast _ _ Hd)).
  pose proof (pw_pos (length (removelast (bins x)))).
  pose proof (Forall_last _ Hn Hd) as Hl. unfold digit_ok in Hl.
  set (u := bins_val (removelast (bins x))) in *. set (p := pw _) in *.
  set (t := last (bins x) 0) in *.
  destruct (Z.eqb_spec u 0) as [->|Hu].
  - destruct (Z.eqb_spec t 0) as [->|Ht].
    + replace (0 + p * 0 =? 0) with true by lia. cbn. destruct (Bool.eqb _ _); reflexivity.
    + replace (0 + p * t =? 0) with false by nia. cbn. reflexivity.
  - replace (u + p * t =? 0) with false by nia. reflexivity.
Qed.

(** negation *)
Lemma negate_spec x : wf x ->
  negate x = Ok (mkInt (bins x) (if aval x =? 0 then false else negb (negative x))).
Proof. intros H. unfold negate. rewrite equals_int32_0 by assumption. reflexivity. Qed.

Lemma negate_ok x : wf x -> exists r, negate x = Ok r /\ val r = - val x /\ bins r = bins x /\ wf r /\
   (val r = 0 -> negative r = false) /\ (negative x = true -> negative r = false) /\
   (trimmed (bins x) -> canonical r).
Proof.
  intros H. pose proof (aval_nonneg x H). rewrite negate_spec by assumption.
  eexists; split; [reflexivity|]. unfold val; cbn [bins negative]. fold (aval x).
  destruct (Z.eqb_spec (aval x) 0) as [E|E].
  - rewrite E. splits; try tauto; try (destruct (negative x); lia); try (split; apply H).
    intros Ht. apply mk_canonical; auto; [apply H | congruence].
  - splits; try (split; apply H).
    + destruct (negative x); cbn; lia.
    + destruct (negative x); cbn; lia.
    + intros ->. reflexivity.
    + intros Ht. apply mk_canonical; auto; apply H.
Qed.

Lemma op_neg_ok x : wf x -> exists r, op_neg x = Ok r /\ val r = - val x /\ bins r = bins x /\ wf r /\
   (val r = 0 -> negative r = false) /\ (negative x = true -> negative r = false) /\
   (trimmed (bins x) -> canonical r).
Proof. apply negate_ok. Qed.

(** comparison *)
Lemma cmp_ints_sgn a b : cmp_ints a b = Z.sgn (a - b).
Proof. unfold cmp_ints. destruct (Z.ltb_spec a b); [lia|]. destruct (Z.gtb_spec a b); lia. Qed.

Lemma cmp_loop_spec a : forall b, length a = length b -> Forall digit_ok a -> Forall digit_ok b ->
  cmp_loop a b = Z.sgn (bins_val (rev a) - bins_val (rev b)).
Proof.
  induction a as [|x a IH]; intros [|y b] Hl Ha Hb; cbn in Hl; try lia; [reflexivity|].
  inversion Ha as [|? ? Hx Ha']; inversion Hb as [|? ? Hy Hb']; subst. cbn [cmp_loop rev].
  rewrite !bins_val_app, !rev_length. cbn [bins_val].
  assert (length a = length b) as Hl' by lia. rewrite <- Hl'.
  rewrite cmp_ints_sgn.
  pose proof (bins_val_bound (rev a) ltac:(apply Forall_rev; assumption)) as Ba.
  pose proof (bins_val_bound (rev b) ltac:(apply Forall_rev; assumption)) as Bb.
  rewrite rev_length in Ba, Bb. rewrite <- Hl' in Bb. pose proof (pw_pos (length a)).
  destruct (Z.eqb_spec (Z.sgn (x - y)) 0) as [E|E].
  - rewrite IH by auto. assert (x = y) by lia. subst y. f_equal. lia.
  - assert (x < y \/ y < x) as [L|L] by lia.
    + rewrite !Z.sgn_neg; [reflexivity| |lia]. nia.
    + rewrite !Z.sgn_pos; [reflexivity| |lia]. nia.
Qed.

Lemma existsb_nonzero l : Forall digit_ok l -> existsb (fun b => negb (b =? 0)) l = negb (bins_val l =? 0).
Proof.
  intros H. rewrite <- forallb_zero by assumption. clear H.
  induction l as [|a l IH]; [reflexivity|]. cbn [existsb forallb]. rewrite IH.
  destruct (a =? 0); reflexivity.
Qed.

Lemma Forall_firstn_ {A} (P : A -> Prop) n l : Forall P l -> Forall P (firstn n l).
Proof. intros H. rewrite <- (firstn_skipn n l) in H. apply Forall_app in H. apply H. Qed.
Lemma Forall_skipn_ {A} (P : A -> Prop) n l : Forall P l -> Forall P (skipn n l).
Proof. intros H. rewrite <- (firstn_skipn n l) in H. apply Forall_app in H. apply H. Qed.

Lemma cmp_bins_le_spec x y : wf x -> wf y -> (size x <= size y)%nat -> cmp_bins_le x y = Z.sgn (aval x - aval y).
Proof.
  intros [Hnx Hx] [Hny Hy] Hs. unfold cmp_bins_le, aval. unfold size in *.
  set (k := (length (bins y) - length (bins x))%nat).
  pose proof (Forall_rev Hy) as Hry. pose proof (Forall_rev Hx) as Hrx.
  assert (Hsplit : bins y = rev (skipn k (rev (bins y))) ++ rev (firstn k (rev (bins y)))).
  { rewrite <- rev_app_distr, firstn_skipn, rev_involutive. reflexivity. }
  assert (Hlen : length (skipn k (rev (bins y))) = length (bins x)).
  { rewrite skipn_length, rev_length. subst k. lia. }
  assert (Ey : bins_val (bins y) = bins_val (rev (skipn k (rev (bins y)))) + pw (length (bins x)) * bins_val (rev (firstn k (rev (bins y))))).
  { rewrite Hsplit at 1. rewrite bins_val_app, rev_length, Hlen. reflexivity. }
  rewrite Ey. clear Ey Hsplit.
  rewrite existsb_nonzero by (apply Forall_firstn_; assumption).
  pose proof (bins_val_bound _ Hx) as Bx.
  pose proof (bins_val_nonneg (rev (skipn k (rev (bins y)))) ltac:(apply Forall_rev, Forall_skipn_; assumption)) as B1.
  pose proof (bins_val_nonneg (rev (firstn k (rev (bins y)))) ltac:(apply Forall_rev, Forall_firstn_; assumption)) as B2.
  assert (Z0 : bins_val (firstn k (rev (bins y))) = 0 <-> bins_val (rev (firstn k (rev (bins y)))) = 0).
  { rewrite !bins_val_0_iff by (try apply Forall_rev; apply Forall_firstn_; assumption).
    split; [apply Forall_rev|]. intros F. apply Forall_rev in F. rewrite rev_involutive in F. exact F. }
  pose proof (pw_pos (length (bins x))).
  destruct (Z.eqb_spec (bins_val (firstn k (rev (bins y)))) 0) as [E|E]; cbn [negb].
  - apply Z0 in E. rewrite E. rewrite cmp_loop_spec.
    + rewrite rev_involutive. f_equal. lia.
    + rewrite rev_length. lia.
    + assumption.
    + apply Forall_skipn_; assumption.
  - assert (bins_val (rev (firstn k (rev (bins y)))) <> 0) by tauto.
    rewrite Z.sgn_neg; [reflexivity|]. nia.
Qed.

Lemma cmp_bins_spec x y : wf x -> wf y -> cmp_bins x y = Z.sgn (aval x - aval y).
Proof.
  intros Hx Hy. unfold cmp_bins. destruct (Nat.ltb_spec (size y) (size x)).
  - rewrite cmp_bins_le_spec by (auto; lia). lia.
  - rewrite cmp_bins_le_spec by auto. reflexivity.
Qed.

Lemma cmp_spec x y : wf x -> wf y -> cmp x y = Ok (Z.sgn (val x - val y)).
Proof.
  intros Hx Hy. pose proof (aval_nonneg x Hx). pose proof (aval_nonneg y Hy).
  unfold cmp. rewrite cmp_bins_spec, equals_int32_0 by assumption. rewrite !val_aval.
  destruct (Z.eqb_spec (Z.sgn (aval x - aval y)) 0) as [E|E].
  - cbn [bind]. destruct (Z.eqb_spec (aval x) 0).
    + f_equal. destruct (negative x), (negative y); lia.
    + destruct (negative x), (negative y); cbn [andb negb]; f_equal; lia.
  - cbn [bind]. destruct (negative x), (negative y); cbn [andb negb]; f_equal; lia.
Qed.

Lemma op_lt_spec x y : wf x -> wf y -> op_lt x y = Ok (val x <? val y).
Proof. intros. unfold op_lt. rewrite cmp_spec by assumption. cbn [bind]. f_equal. lia. Qed.
Lemma op_gt_spec x y : wf x -> wf y -> op_gt x y = Ok (val x >? val y).
Proof. intros. unfold op_gt. rewrite cmp_spec by assumption. cbn [bind]. f_equal. lia. Qed.
Lemma op_le_spec x y : wf x -> wf y -> op_le x y = Ok (val x <=? val y).
Proof. intros. unfold op_le. rewrite cmp_spec by assumption. cbn [bind]. f_equal. lia. Qed.
Lemma op_ge_spec x y : wf x -> wf y -> op_ge x y = Ok (val x >=? val y).
Proof. intros. unfold op_ge. rewrite cmp_spec by assumption. cbn [bind]. f_equal. lia. Qed.
Lemma op_ne_spec x y : wf x -> wf y -> op_ne x y = Ok (negb (val x =? val y)).
Proof. intros. unfold op_ne. rewrite cmp_spec by assumption. cbn [bind]. f_equal. lia. Qed.
Lemma op_eq_spec x y : wf x -> wf y -> op_eq x y = Ok (val x =? val y).
Proof. intros. unfold op_eq. rewrite cmp_spec by assumption. cbn [bind]. f_equal. lia. Qed.

(** cleanBins *)
Lemma drop_zeros_spec r : Forall digit_ok r -> r <> [] ->
  exists n r', r = repeat 0 n ++ r' /\ drop_zeros r = r' /\ r' <> [] /\ ((length r' > 1)%nat -> hd 0 r' <> 0).
Proof.
  induction 1 as [|b r Hb Hr IH]; [congruence|]. intros _. cbn [drop_zeros].
  destruct r as [|c r].
  - exists 0%nat, [b]. repeat split; try congruence. cbn. lia.
  - destruct (Z.eqb_spec b 0) as [->|Hnz].
    + destruct (IH ltac:(discriminate)) as [n [r' [E1 [E2 [E3 E4]]]]].
      exists (S n), r'. repeat split; auto. cbn [repeat app]. rewrite <- E1. reflexivity.
    + exists 0%nat, (b :: c :: r). repeat split; try congruence. intros _. exact Hnz.
Qed.

Lemma repeat_rev {A} (a : A) n : rev (repeat a n) = repeat a n.
Proof.
  induction n; cbn [repeat rev]; [reflexivity|]. rewrite IHn. clear.
  induction n; cbn; [reflexivity|]. rewrite IHn. reflexivity.
Qed.

Lemma last_rev l : last (rev l) 0 = hd 0 l.
Proof. destruct l; [reflexivity|]. cbn [rev hd]. apply last_last. Qed.

Lemma clean_list_spec l : Forall digit_ok l -> l <> [] ->
  exists n, l = clean_list l ++ repeat 0 n /\ trimmed (clean_list l) /\ Forall digit_ok (clean_list l)
    /\ bins_val (clean_list l) = bins_val l.
Proof.
  intros Hd Hn. unfold clean_list.
  destruct (drop_zeros_spec (rev l)) as [n [r' [E1 [E2 [E3 E4]]]]].
  { apply Forall_rev; assumption. }
  { intros E. apply (f_equal (@rev Z)) in E. rewrite rev_involutive in E. cbn in E. congruence. }
  assert (El : l = rev r' ++ repeat 0 n).
  { rewrite <- (rev_involutive l), E1, rev_app_distr, repeat_rev. reflexivity. }
  rewrite E2. exists n. split; [exact El|]. split; [|split].
  - split.
    + intros E. apply (f_equal (@rev Z)) in E. rewrite rev_involutive in E. cbn in E. congruence.
    + rewrite rev_length, last_rev. exact E4.
  - rewrite El in Hd. apply Forall_app in Hd. apply Hd.
  - rewrite El. rewrite bins_val_app, bins_val_repeat. lia.
Qed.

Lemma clean_bins_wf x : wf x -> wf (clean_bins x) /\ trimmed (bins (clean_bins x)) /\ val (clean_bins x) = val x
   /\ aval (clean_bins x) = aval x.
Proof.
  intros [Hn Hd]. destruct (clean_list_spec (bins x) Hd Hn) as [n [E1 [E2 [E3 E4]]]].
  unfold clean_bins, val, wf, aval. cbn [bins negative].
  repeat split; auto; try apply E2. destruct (negative x); lia.
Qed.

Lemma clean_trimmed l : trimmed l -> clean_list l = l.
Proof.
  intros [Hn Ht]. unfold clean_list. rewrite <- (rev_involutive l) at 2. f_equal.
  destruct (rev l) as [|b r] eqn:E; [reflexivity|]. cbn [drop_zeros].
  destruct r as [|c r]; [reflexivity|].
  assert (Hb : last l 0 = b).
  { rewrite <- (rev_involutive l), E. rewrite last_rev. reflexivity. }
  assert (Hlen : (length l > 1)%nat).
  { rewrite <- rev_length, E. cbn. lia. }
  specialize (Ht Hlen). rewrite Hb in Ht. destruct (Z.eqb_spec b 0); [contradiction|reflexivity].
Qed.

(** constructors *)
Lemma Int_default_canonical : canonical Int_default.
Proof. apply canonicalb_spec. reflexivity. Qed.
Lemma val_default : val Int_default = 0. Proof. reflexivity. Qed.

Lemma push_bins_spec : forall f x, 0 < x -> x < pw f ->
  exists bs, push_bins f x = Ok bs /\ bins_val bs = x /\ Forall digit_ok bs /\ trimmed bs.
Proof.
  induction f as [|f IH]; intros x H0 Hx.
  - rewrite pw_0 in Hx. lia.
  - rewrite pw_S in Hx. cbn [push_bins]. unfold BIN_LIMIT.
    destruct (Z.geb_spec x B).
    + assert (Hr : 0 <= Z.rem x B < B /\ x = Z.rem x B + B * (x ÷ B) /\ 0 < x ÷ B) by ldiv.
      destruct (IH (x ÷ B)) as [bs [E1 [E2 [E3 E4]]]].
      { lia. } { rewrite Z.quot_div_nonneg by lia. apply Z.div_lt_upper_bound; lia. }
      rewrite E1. cbn [bind]. eexists; split; [reflexivity|]. cbn [bins_val].
      rewrite to_int32_id by (unfold INT32_MIN, INT32_MAX; lia).
      rewrite E2. splits.
      * lia.
      * constructor; [unfold digit_ok; lia|assumption].
      * apply trimmed_cons; [assumption|]. rewrite E2. lia.
    + destruct (Z.gtb_spec x 0); [|lia].
      eexists; split; [reflexivity|]. rewrite to_int32_id by (unfold INT32_MIN, INT32_MAX; lia). cbn [bins_val].
      splits; [lia| |apply trimmed_single].
      constructor; [unfold digit_ok; lia|constructor].
Qed.

Lemma shifted_bins s bs v : bins_val bs = v -> Forall digit_ok bs -> trimmed bs -> v <> 0 ->
  bins_val (repeat 0 s ++ bs) = v * pw s /\ Forall digit_ok (repeat 0 s ++ bs) /\ trimmed (repeat 0 s ++ bs)
  /\ (length (repeat 0%Z s ++ bs) > s)%nat.
Proof.
  intros E F T N. splits.
  - rewrite bins_val_app, bins_val_repeat, repeat_length, E. lia.
  - apply Forall_app; split; [apply Forall_repeat0|assumption].
  - apply trimmed_repeat; [assumption|]. lia.
  - rewrite app_length, repeat_length. destruct bs; [destruct T; congruence|cbn; lia].
Qed.

Lemma Int_of_int64_ok x s : INT64_MIN < x <= INT64_MAX ->
  exists r, Int_of_int64 x s = Ok r /\ val r = x * pw s /\ canonical r /\ (negative r = (x <? 0)) /\
            (x <> 0 -> (size r > s)%nat) /\ (x = 0 -> bins r = [0]).
Proof.
  intros H. unfold INT64_MIN, INT64_MAX in H. unfold Int_of_int64.
  assert (P4 : pw 4 = 1000000000000000000000000000000000000) by reflexivity.
  pose proof (pw_pos s) as Ps.
  destruct (Z.ltb_spec x 0).
  - rewrite i64_ok by (unfold INT64_MIN, INT64_MAX; lia). cbn [bind].
    destruct (push_bins_spec 4 (- x) ltac:(lia) ltac:(lia)) as [bs [E1 [E2 [E3 E4]]]].
    rewrite E1. cbn [bind]. eexists; split; [reflexivity|].
    destruct (shifted_bins s bs (-x) E2 E3 E4 ltac:(lia)) as [V [F [T L]]].
    unfold val, size. cbn [bins negative]. splits; auto; try lia.
    apply mk_canonical; auto. nia.
  - destruct (Z.eqb_spec x 0) as [->|Hnz].
    + eexists; split; [reflexivity|]. splits; try congruence; try reflexivity.
      apply canonicalb_spec. reflexivity.
    + destruct (push_bins_spec 4 x ltac:(lia) ltac:(lia)) as [bs [E1 [E2 [E3 E4]]]].
      rewrite E1. cbn [bind]. eexists; split; [reflexivity|].
      destruct (shifted_bins s bs x E2 E3 E4 ltac:(lia)) as [V [F [T L]]].
      unfold val, size. cbn [bins negative]. splits; auto; try lia.
      apply mk_canonical; auto. congruence.
Qed.

Lemma Int_shifted_spec x s : wf x -> wf (Int_shifted x s) /\ val (Int_shifted x s) = val x * pw s /\
  (trimmed (bins x) -> aval x <> 0 -> trimmed (bins (Int_shifted x s))) /\ aval (Int_shifted x s) = aval x * pw s.
Proof.
  intros [Hn Hd]. unfold Int_shifted, aval.
  assert (V : bins_val (repeat 0 s ++ bins x) = bins_val (bins x) * pw s).
  { rewrite bins_val_app, bins_val_repeat, repeat_length. lia. }
  repeat split; cbn [bins negative].
  - destruct (repeat 0 s); [assumption|discriminate].
  - apply Forall_app; split; [apply Forall_repeat0|assumption].
  - unfold val. cbn [bins negative]. rewrite V. destruct (negative x); lia.
  - destruct (repeat 0 s); [assumption|discriminate].
  - apply trimmed_repeat; assumption.
  - exact V.
Qed.

Lemma abs_Int_ok x : wf x -> exists r, abs_Int x = Ok r /\ wf r /\ val r = Z.abs (val x).
Proof.
  intros H. unfold abs_Int.
  destruct (Int_of_int64_ok 0 0) as [z [Ez [Vz [Cz _]]]]; [unfold INT64_MIN, INT64_MAX; lia|].
  rewrite Ez. cbn [bind]. rewrite op_lt_spec by auto. cbn [bind]. rewrite Vz.
  destruct (Z.ltb_spec (val x) (0 * pw 0)).
  - destruct (op_neg_ok x H) as [r [E [V [_ [W _]]]]]. exists r. repeat split; auto; try apply W. lia.
  - exists x. repeat split; auto; try apply H. lia.
Qed.
