(** Bounds on the rounds of sums, differences, comparisons and products of Ints. *)
From Coq Require Import ZifyBool.
From Verif Require Import Base IntModel IntSpec IntBasics IntAddSub IntMul IntDiv IntSize CostModel CostProofs IntCostModel IntCost.
Local Open Scope list_scope.
Local Open Scope Z_scope.

(** At most k rounds, and the result if any satisfies Q. *)
Definition spends {A} (m : counted A) (k : Z) (Q : A -> Prop) : Prop := snd m <= k /\ forall a, fst m = Ok a -> Q a.
Lemma sp_bind {A B} (m : counted A) (f : A -> counted B) k1 k2 Q1 Q : spends m k1 Q1 -> 0 <= k2 -> (forall a, Q1 a -> spends (f a) k2 Q) ->
  spends (cbind m f) (k1 + k2) Q.
Proof.
  intros [H1 H2] K H. destruct m as [[a| | | |] n]; cbn in *; try (split; [cbn; lia|cbn; discriminate]).
  destruct (H a (H2 a eq_refl)) as [H3 H4]. split; cbn; [lia|exact H4].
Qed.
Lemma sp_weak {A} (m : counted A) k k' (Q Q' : A -> Prop) : spends m k Q -> k <= k' -> (forall a, Q a -> Q' a) -> spends m k' Q'.
Proof. intros [H1 H2] K H. split; [lia|auto]. Qed.
Lemma sp_free {A} (m : res A) (Q : A -> Prop) : (forall a, m = Ok a -> Q a) -> spends (free m) 0 Q.
Proof. split; [cbn; lia|auto]. Qed.
Lemma sp_lap {A} (m : counted A) k Q : spends m k Q -> spends (lap m) (1 + k) Q.
Proof. intros [H1 H2]. split; [cbn; lia|exact H2]. Qed.
Lemma sp_ok {A} (a : A) (Q : A -> Prop) : Q a -> spends (free (Ok a)) 0 Q.
Proof. intros H. apply sp_free. intros b E. injection E as <-. auto. Qed.

Lemma len_nonneg l : 0 <= len l. Proof. unfold len. lia. Qed.
Lemma len_cons b l : len (b :: l) = 1 + len l. Proof. unfold len. cbn [length]. lia. Qed.
Lemma len_app a b : len (a ++ b) = len a + len b. Proof. unfold len. rewrite app_length. lia. Qed.
Lemma len_repeat z n : len (repeat z n) = Z.of_nat n. Proof. unfold len. rewrite repeat_length. auto. Qed.
Lemma len_rev l : len (rev l) = len l. Proof. unfold len. rewrite rev_length. auto. Qed.
#[export] Hint Resolve len_nonneg : core.

Lemma zero_run_le l : 0 <= zero_run l <= len l.
Proof. induction l as [|b l IH]; [cbn; lia|]. rewrite len_cons. cbn [zero_run]. destruct (b =? 0); lia. Qed.
Lemma removelast_len l : len (removelast l) <= len l.
Proof. destruct l as [|b l]; [cbn; lia|]. unfold len. rewrite (length_snoc (b :: l)) by discriminate. lia. Qed.
Lemma copy_sp x n : len (bins x) <= n -> spends (copy_c x) n (eq x).
Proof. intros H. split; [exact H|]. intros a E. injection E as <-. reflexivity. Qed.
Lemma equals_sp x v n : 1 <= n -> len (bins x) <= n -> spends (equals_c x v) n (fun _ => True).
Proof.
  intros N H. split; auto. unfold equals_c. cbn [snd]. destruct (bins x) as [|b l]; [lia|].
  pose proof (zero_run_le (removelast (b :: l))). pose proof (removelast_len (b :: l)). lia.
Qed.
Definition same_bins (x r : Int) : Prop := bins r = bins x /\ (negative x = true -> negative r = false).
Lemma negate_sp x n : 1 <= n -> len (bins x) <= n -> spends (negate_c x) n (same_bins x).
Proof.
  intros N H. unfold negate_c. eapply sp_weak; [eapply (sp_bind _ _ n 0); [apply equals_sp; auto|lia|]|lia|exact (fun a H => H)].
  intros z _. apply sp_ok. split; [reflexivity|]. cbn [negative]. intros ->. destruct z; reflexivity.
Qed.
Lemma op_neg_sp x n : 1 <= n -> len (bins x) <= n -> spends (op_neg_c x) (2 * n) (same_bins x).
Proof.
  intros N H. unfold op_neg_c. eapply sp_weak; [eapply (sp_bind _ _ n n); [apply copy_sp; auto|lia|]|lia|exact (fun a H => H)].
  intros z <-. apply negate_sp; auto.
Qed.

Lemma cmp_rounds_le a : forall b, 0 <= cmp_rounds a b <= len a.
Proof.
  induction a as [|x a IH]; intros [|y b]; cbn [cmp_rounds]; rewrite ?len_cons; try (cbn; lia).
  - pose proof (len_nonneg a). lia.
  - specialize (IH b). destruct (_ =? 0); lia.
Qed.
Lemma cmp_bins_rounds_le x y : (size x <= size y)%nat -> cmp_bins_rounds x y <= len (bins y).
Proof.
  intros H. unfold cmp_bins_rounds, size in *. pose proof (zero_run_le (firstn (length (bins y) - length (bins x)) (rev (bins y)))) as H1.
  assert (H2 : len (firstn (length (bins y) - length (bins x)) (rev (bins y))) = len (bins y) - len (bins x)).
  { unfold len. rewrite firstn_length, rev_length. lia. }
  pose proof (cmp_rounds_le (rev (bins x)) (skipn (length (bins y) - length (bins x)) (rev (bins y)))) as H3. rewrite len_rev in H3.
  destruct (existsb _ _); pose proof (len_nonneg (bins x)); lia.
Qed.
Lemma cmp_bins_sp x y n : len (bins x) <= n -> len (bins y) <= n -> spends (cmp_bins_c x y) n (fun _ => True).
Proof.
  intros Hx Hy. split; auto. unfold cmp_bins_c. cbn [snd]. destruct (Nat.ltb_spec (size y) (size x)).
  - pose proof (cmp_bins_rounds_le y x ltac:(lia)). lia.
  - pose proof (cmp_bins_rounds_le x y ltac:(lia)). lia.
Qed.
Lemma cmp_sp x y n : 1 <= n -> len (bins x) <= n -> len (bins y) <= n -> spends (cmp_c x y) (2 * n) (fun _ => True).
Proof.
  intros N Hx Hy. unfold cmp_c. eapply sp_weak; [eapply (sp_bind _ _ n (n + 0)); [apply cmp_bins_sp; auto|lia|]|lia|exact (fun a H => H)].
  intros b _. eapply sp_bind; [|lia|].
  - instantiate (1 := fun _ => True). destruct (_ =? 0); [apply equals_sp; auto|]. apply (sp_weak _ 0 _ (fun _ => True)); [apply sp_free; auto|lia|auto].
  - intros z _. apply sp_free. auto.
Qed.
Ltac via_cmp n := apply (sp_weak _ (2 * n + 0) _ (fun _ => True)); [eapply (sp_bind _ _ _ 0); [apply cmp_sp; eauto|lia|]|lia|auto]; intros; apply sp_free; auto.
Lemma lt_sp x y n : 1 <= n -> len (bins x) <= n -> len (bins y) <= n -> spends (lt_c x y) (2 * n) (fun _ => True).
Proof. intros. unfold lt_c. via_cmp n. Qed.
Lemma gt_sp x y n : 1 <= n -> len (bins x) <= n -> len (bins y) <= n -> spends (gt_c x y) (2 * n) (fun _ => True).
Proof. intros. unfold gt_c. via_cmp n. Qed.
Lemma le_sp x y n : 1 <= n -> len (bins x) <= n -> len (bins y) <= n -> spends (le_c x y) (2 * n) (fun _ => True).
Proof. intros. unfold le_c. via_cmp n. Qed.
Lemma ge_sp x y n : 1 <= n -> len (bins x) <= n -> len (bins y) <= n -> spends (ge_c x y) (2 * n) (fun _ => True).
Proof. intros. unfold ge_c. via_cmp n. Qed.
Lemma abs_sp x n : 1 <= n -> len (bins x) <= n -> spends (abs_c x) (4 * n) (fun r => bins r = bins x).
Proof.
  intros N H. unfold abs_c. eapply sp_weak; [eapply (sp_bind _ _ 0 (2 * n + 2 * n)) with (Q1 := fun z => len (bins z) = 1)|lia|exact (fun a H => H)].
  - apply sp_free. intros a E. injection E as <-. reflexivity.
  - lia.
  - intros z Hz; cbv beta in Hz. eapply sp_bind; [apply lt_sp; auto; lia|lia|]. intros [] _.
    + eapply sp_weak; [apply op_neg_sp; eauto|lia|intros a [Ha _]; exact Ha].
    + eapply sp_weak; [apply copy_sp; eauto|lia|intros a <-; auto].
Qed.

(** The loops of add and subtract. *)
Lemma add_carry_sp l : forall c, spends (add_carry_c l c) (len l) (fun r => len l <= len r <= len l + 1).
Proof.
  induction l as [|b l IH]; intros c; cbn [add_carry_c].
  - destruct (c =? 0); apply sp_ok; cbn; lia.
  - rewrite !len_cons. pose proof (len_nonneg l). destruct (c =? 0).
    + eapply sp_weak; [apply sp_ok; exact (eq_refl (b :: l))|lia|]. intros a <-. rewrite len_cons. lia.
    + apply sp_lap. eapply sp_weak; [eapply (sp_bind _ _ 0 (len l + 0)) with (Q1 := fun _ => True)|lia|exact (fun a H => H)]; [apply sp_free; auto|lia|].
      intros s _. eapply sp_bind; [apply IH|lia|]. intros r Hr; cbv beta in Hr. apply sp_ok. rewrite len_cons. lia.
Qed.
Lemma add_loop_sp xs : forall bs c, spends (add_loop_c bs xs c) (Z.max (len bs) (len xs)) (fun r => len xs <= len bs /\ len bs <= len r <= len bs + 1).
Proof.
  induction xs as [|x xs IH]; intros bs c; cbn [add_loop_c].
  - pose proof (len_nonneg bs). eapply sp_weak; [apply add_carry_sp|cbn; lia|]. intros a Ha; cbv beta in Ha. cbn [len length Z.of_nat]. cbn in *. lia.
  - destruct bs as [|b bs].
    + pose proof (len_nonneg xs). rewrite len_cons. eapply sp_weak; [apply sp_lap, sp_free; intros a Ha; discriminate Ha|cbn; lia|exact (fun a H => H)].
    + rewrite !len_cons. pose proof (len_nonneg xs). pose proof (len_nonneg bs). specialize (IH bs).
      eapply sp_weak; [apply sp_lap; eapply (sp_bind _ _ 0 (0 + (Z.max (len bs) (len xs) + 0))) with (Q1 := fun _ => True)|lia|exact (fun a H => H)]; [apply sp_free; auto|lia|].
      intros t _. eapply sp_bind with (Q1 := fun _ => True); [apply sp_free; auto|lia|].
      intros s _. eapply sp_bind; [apply IH|lia|]. intros r Hr; cbv beta in Hr. apply sp_ok. rewrite len_cons. lia.
Qed.
Lemma add_sp x y : spends (add_c x y) (Z.max (len (bins x)) (len (bins y)))
  (fun r => Z.max (len (bins x)) (len (bins y)) <= len (bins r) <= Z.max (len (bins x)) (len (bins y)) + 1 /\ negative r = negative x).
Proof.
  unfold add_c, size. set (bs := if (_ <? _)%nat then _ else _).
  assert (L : len bs = Z.max (len (bins x)) (len (bins y))).
  { unfold bs. destruct (Nat.ltb_spec (length (bins x)) (length (bins y))); [rewrite len_app, len_repeat|]; unfold len; lia. }
  eapply sp_weak; [eapply (sp_bind _ _ _ 0); [apply add_loop_sp|lia|]|rewrite L; lia|exact (fun a H => H)].
  intros r Hr; cbv beta in Hr. apply sp_ok. cbn [bins negative]. lia.
Qed.
Lemma sub_borrow_sp l : forall c, spends (sub_borrow_c l c) (len l) (fun r => len r = len l).
Proof.
  induction l as [|b l IH]; intros c; cbn [sub_borrow_c].
  - apply sp_ok. reflexivity.
  - rewrite !len_cons. pose proof (len_nonneg l). destruct (c =? 0).
    + eapply sp_weak; [apply sp_ok; exact (eq_refl (b :: l))|lia|]. intros a <-. apply len_cons.
    + eapply sp_weak; [apply sp_lap; eapply (sp_bind _ _ 0 (0 + (len l + 0))) with (Q1 := fun _ => True)|lia|exact (fun a H => H)]; [apply sp_free; auto|lia|].
      intros d _. destruct (d <? 0).
      * eapply sp_bind with (Q1 := fun _ => True); [apply sp_free; auto|lia|]. intros d' _. eapply sp_bind; [apply IH|lia|]. intros r Hr; cbv beta in Hr. apply sp_ok. rewrite len_cons. lia.
      * eapply sp_weak; [eapply sp_bind with (k2 := 0); [apply IH|lia|]|lia|exact (fun a H => H)]. intros r Hr; cbv beta in Hr. apply sp_ok. rewrite len_cons. lia.
Qed.
Lemma sub_loop_sp xs : forall bs c, spends (sub_loop_c bs xs c) (Z.max (len bs) (len xs)) (fun r => len r = len bs).
Proof.
  induction xs as [|x xs IH]; intros bs c; cbn [sub_loop_c].
  - pose proof (len_nonneg bs). eapply sp_weak; [apply sub_borrow_sp|cbn; lia|]. auto.
  - destruct bs as [|b bs].
    + pose proof (len_nonneg xs). rewrite len_cons. eapply sp_weak; [apply sp_lap, sp_free; intros a Ha; discriminate Ha|cbn; lia|exact (fun a H => H)].
    + rewrite !len_cons. pose proof (len_nonneg xs). pose proof (len_nonneg bs). specialize (IH bs).
      eapply sp_weak; [apply sp_lap; eapply (sp_bind _ _ 0 (0 + (0 + (Z.max (len bs) (len xs) + 0)))) with (Q1 := fun _ => True)|lia|exact (fun a H => H)]; [apply sp_free; auto|lia|].
      intros t _. eapply sp_bind with (Q1 := fun _ => True); [apply sp_free; auto|lia|].
      intros d _. destruct (d <? 0).
      * eapply sp_bind with (Q1 := fun _ => True); [apply sp_free; auto|lia|]. intros d' _. eapply sp_bind; [apply IH|lia|]. intros r Hr; cbv beta in Hr. apply sp_ok. rewrite len_cons. lia.
      * eapply sp_weak; [eapply sp_bind with (k2 := 0); [apply IH|lia|]|lia|exact (fun a H => H)]. intros r Hr; cbv beta in Hr. apply sp_ok. rewrite len_cons. lia.
Qed.
Lemma drop_zeros_len l : len (drop_zeros l) <= len l /\ (l <> [] -> 1 <= len (drop_zeros l)).
Proof.
  induction l as [|b l IH]; [cbn; split; [lia|congruence]|]. cbn [drop_zeros]. destruct l as [|c l]; [cbn; split; lia|].
  rewrite (len_cons b). destruct IH as [H1 H2]. specialize (H2 ltac:(discriminate)). destruct (b =? 0); rewrite ?(len_cons b); split; intros; lia.
Qed.
Lemma clean_len l : 0 <= len (clean_list l) <= len l /\ (l <> [] -> 1 <= len (clean_list l)).
Proof.
  unfold clean_list. rewrite len_rev. destruct (drop_zeros_len (rev l)) as [H1 H2]. rewrite len_rev in H1. split; [split; auto|].
  intros N. apply H2. intros E. apply N. rewrite <- (rev_involutive l), E. reflexivity.
Qed.
Lemma clean_sp l n : len l <= n -> spends (clean_c l) n (fun r => len r <= len l).
Proof. intros H. destruct (clean_len l) as [H1 _]. split; [cbn; lia|]. intros a E. injection E as <-. lia. Qed.
Lemma clean_bins_sp x n : len (bins x) <= n -> spends (clean_bins_c x) n (fun r => len (bins r) <= len (bins x) /\ negative r = negative x).
Proof.
  intros H. unfold clean_bins_c. eapply sp_weak; [eapply (sp_bind _ _ n 0); [apply clean_sp; auto|lia|]|lia|exact (fun a H => H)].
  intros r Hr; cbv beta in Hr. apply sp_ok. cbn. auto.
Qed.
Lemma subtract_sp x y n : 1 <= n -> len (bins x) <= n -> len (bins y) <= n ->
  spends (subtract_c x y) (12 * n) (fun r => len (bins r) <= len (bins x) /\ negative r = negative x).
Proof.
  intros N Hx Hy. unfold subtract_c.
  eapply sp_weak; [eapply (sp_bind _ _ 0 (0 + (4 * n + (4 * n + (2 * n + (0 + (n + (n + 0)))))))) with (Q1 := fun _ => True); [apply sp_free; auto|lia|]|lia|exact (fun a H => H)].
  intros _ _. eapply sp_bind with (Q1 := fun _ => True); [apply sp_free; auto|lia|].
  intros _ _. eapply sp_bind; [apply abs_sp; auto|lia|].
  intros a Ha; cbv beta in Ha. eapply sp_bind; [apply abs_sp; auto|lia|].
  intros b Hb; cbv beta in Hb. eapply sp_bind; [apply ge_sp; rewrite ?Ha, ?Hb; auto|lia|].
  intros g _. eapply sp_bind with (Q1 := fun _ => True); [apply sp_free; auto|lia|].
  intros _ _. eapply sp_bind; [eapply sp_weak; [apply sub_loop_sp|lia|exact (fun a H => H)]|lia|].
  intros r Hr; cbv beta in Hr. eapply sp_bind; [apply (clean_sp r n); lia|lia|].
  intros l Hl; cbv beta in Hl. apply sp_ok. cbn [bins negative]. split; [lia|auto].
Qed.

(** Sums and differences. *)
Definition fits (n : Z) (r : Int) : Prop := len (bins r) <= n.
Lemma sub_nonneg_sp f x y n : 1 <= n -> len (bins x) <= n -> len (bins y) <= n -> nonneg x -> nonneg y -> spends (addsub_c (S f) true x y) (18 * n) (fits n).
Proof.
  intros N Hx Hy Nx Ny. unfold nonneg in *. cbn [addsub_c]. rewrite Nx, Ny. cbn [andb negb].
  eapply sp_weak; [eapply (sp_bind _ _ (2 * n) (16 * n)); [apply gt_sp; auto|lia|]|lia|exact (fun a H => H)].
  intros [] _.
  - eapply sp_weak; [eapply (sp_bind _ _ n (n + 12 * n)); [apply copy_sp; auto|lia|]|lia|exact (fun a H => H)].
    intros r <-. eapply sp_bind; [apply clean_bins_sp; eauto|lia|]. intros r [Hr _].
    eapply sp_weak; [apply subtract_sp; eauto; lia|lia|]. intros a [Ha _]. unfold fits. lia.
  - eapply sp_weak; [eapply (sp_bind _ _ n (n + (12 * n + 2 * n))); [apply copy_sp; auto|lia|]|lia|exact (fun a H => H)].
    intros r <-. eapply sp_bind; [apply clean_bins_sp; eauto|lia|]. intros r [Hr _].
    eapply sp_bind; [apply subtract_sp; auto; lia|lia|]. intros a [Ha _].
    eapply sp_weak; [apply op_neg_sp; eauto; lia|lia|]. intros b [Hb _]. unfold fits. rewrite Hb. lia.
Qed.
Lemma add_nonneg_sp f x y n : len (bins x) <= n -> len (bins y) <= n -> nonneg x -> nonneg y -> spends (addsub_c (S f) false x y) (2 * n) (fits (n + 1)).
Proof.
  intros Hx Hy Nx Ny. unfold nonneg in *. cbn [addsub_c]. rewrite Nx, Ny. cbn [andb negb]. pose proof (len_nonneg (bins x)).
  destruct (size y <? size x)%nat.
  - eapply sp_weak; [eapply (sp_bind _ _ n n); [apply copy_sp; auto|lia|]|lia|exact (fun a H => H)].
    intros r <-. eapply sp_weak; [apply add_sp|lia|]. intros a [Ha _]. unfold fits. lia.
  - eapply sp_weak; [eapply (sp_bind _ _ n n); [apply copy_sp; auto|lia|]|lia|exact (fun a H => H)].
    intros r <-. eapply sp_weak; [apply add_sp|lia|]. intros a [Ha _]. unfold fits. lia.
Qed.
Lemma addsub_nonneg_sp f s x y n : 1 <= n -> len (bins x) <= n -> len (bins y) <= n -> nonneg x -> nonneg y -> spends (addsub_c (S f) s x y) (18 * n) (fits (n + 1)).
Proof.
  intros. destruct s.
  - eapply sp_weak; [apply sub_nonneg_sp; eauto|lia|]. unfold fits. lia.
  - eapply sp_weak; [apply add_nonneg_sp; eauto|lia|]. auto.
Qed.
Lemma addsub_sp f s x y n : 1 <= n -> len (bins x) <= n -> len (bins y) <= n -> spends (addsub_c (S (S f)) s x y) (26 * n) (fits (n + 1)).
Proof.
  intros N Hx Hy. destruct (negative x) eqn:Nx, (negative y) eqn:Ny.
  - assert (G : spends (nx <-- op_neg_c x ;;; ny <-- op_neg_c y ;;; r <-- addsub_c (S f) s nx ny ;;; op_neg_c r) (26 * n) (fits (n + 1))).
    { eapply sp_weak; [eapply (sp_bind _ _ (2 * n) (2 * n + (18 * n + 2 * (n + 1)))); [apply op_neg_sp; auto|lia|]|lia|exact (fun a H => H)].
      intros a [Ba Na]. eapply sp_bind; [apply op_neg_sp; auto|lia|]. intros b [Bb Nb]. eapply sp_bind; [apply addsub_nonneg_sp; rewrite ?Ba, ?Bb; unfold nonneg; auto|lia|].
      intros r Hr; cbv beta in Hr. eapply sp_weak; [apply (op_neg_sp r (n + 1)); auto; lia|lia|]. intros c [Bc _]. unfold fits. rewrite Bc. exact Hr. }
    cbn [addsub_c] in *. rewrite Nx, Ny in *. destruct s; exact G.
  - assert (G : spends (nx <-- op_neg_c x ;;; r <-- addsub_c (S f) (negb s) nx y ;;; op_neg_c r) (26 * n) (fits (n + 1))).
    { eapply sp_weak; [eapply (sp_bind _ _ (2 * n) (18 * n + 2 * (n + 1))); [apply op_neg_sp; auto|lia|]|lia|exact (fun a H => H)].
      intros a [Ba Na]. eapply sp_bind; [apply addsub_nonneg_sp; rewrite ?Ba; unfold nonneg; auto|lia|].
      intros r Hr; cbv beta in Hr. eapply sp_weak; [apply (op_neg_sp r (n + 1)); auto; lia|lia|]. intros c [Bc _]. unfold fits. rewrite Bc. exact Hr. }
    cbn [addsub_c] in *. rewrite Nx, Ny in *. destruct s; exact G.
  - assert (G : spends (ny <-- op_neg_c y ;;; addsub_c (S f) (negb s) x ny) (26 * n) (fits (n + 1))).
    { eapply sp_weak; [eapply (sp_bind _ _ (2 * n) (18 * n)); [apply op_neg_sp; auto|lia|]|lia|exact (fun a H => H)].
      intros a [Ba Na]. apply addsub_nonneg_sp; rewrite ?Ba; unfold nonneg; auto. }
    cbn [addsub_c] in *. rewrite Nx, Ny in *. destruct s; exact G.
  - eapply sp_weak; [apply addsub_nonneg_sp; eauto|lia|auto].
Qed.
Lemma asg_nonneg_sp f s x y n : 1 <= n -> len (bins x) <= n -> len (bins y) <= n -> nonneg x -> nonneg y -> spends (addsub_assign_c (S f) s x (Some y)) (16 * n) (fits (n + 1)).
Proof.
  intros N Hx Hy Nx Ny. unfold nonneg in *. cbn [addsub_assign_c rd]. rewrite Nx, Ny. cbn [andb negb]. destruct s.
  - eapply sp_weak; [eapply (sp_bind _ _ (2 * n) (n + 13 * n)); [apply gt_sp; auto|lia|]|lia|exact (fun a H => H)].
    intros [] _.
    + eapply sp_weak; [apply subtract_sp; eauto; lia|lia|]. intros a [Ha _]. unfold fits. lia.
    + eapply sp_bind; [apply copy_sp; auto|lia|]. intros r <-.
      eapply sp_weak; [eapply sp_bind with (k2 := n); [apply subtract_sp; eauto; lia|lia|]|lia|exact (fun a H => H)]. intros a [Ha _].
      eapply sp_weak; [apply negate_sp; eauto; lia|lia|]. intros b [Hb _]. unfold fits. rewrite Hb. lia.
  - eapply sp_weak; [eapply (sp_bind _ _ n n); [apply copy_sp; auto|lia|]|lia|exact (fun a H => H)].
    intros r <-. eapply sp_weak; [apply add_sp|lia|]. intros a [Ha _]. unfold fits. lia.
Qed.
Lemma asg_alias f s x : addsub_assign_c f s x None = addsub_assign_c f s x (Some x) \/ negative x = true.
Proof. destruct (negative x) eqn:N; [auto|left]. destruct f; [reflexivity|]. cbn [addsub_assign_c rd]. rewrite N. reflexivity. Qed.
Lemma addsub_assign_sp f s x o n : 1 <= n -> len (bins x) <= n -> len (bins (rd x o)) <= n -> spends (addsub_assign_c (S (S f)) s x o) (23 * n) (fits (n + 1)).
Proof.
  intros N Hx Hy. destruct (negative x) eqn:Nx, (negative (rd x o)) eqn:Ny.
  - assert (G : spends (tmp <-- op_neg_c (rd x o) ;;; this1 <-- negate_c x ;;; this2 <-- addsub_assign_c (S f) s this1 (Some tmp) ;;; negate_c this2) (23 * n) (fits (n + 1))).
    { eapply sp_weak; [eapply (sp_bind _ _ (2 * n) (n + (16 * n + (n + 1)))); [apply op_neg_sp; auto|lia|]|lia|exact (fun a H => H)].
      intros a [Ba Na]. eapply sp_bind; [apply negate_sp; auto|lia|]. intros b [Bb Nb]. eapply sp_bind; [apply asg_nonneg_sp; rewrite ?Ba, ?Bb; unfold nonneg; auto|lia|].
      intros r Hr; cbv beta in Hr. eapply sp_weak; [apply (negate_sp r (n + 1)); auto; lia|lia|]. intros c [Bc _]. unfold fits. rewrite Bc. exact Hr. }
    cbn [addsub_assign_c] in *. rewrite Nx, Ny in *. destruct s; exact G.
  - destruct o as [y|]; [cbn [rd] in *|cbn [rd] in Ny; congruence].
    assert (G : spends (this1 <-- negate_c x ;;; this2 <-- addsub_assign_c (S f) (negb s) this1 (Some y) ;;; negate_c this2) (23 * n) (fits (n + 1))).
    { eapply sp_weak; [eapply (sp_bind _ _ n (16 * n + (n + 1))); [apply negate_sp; auto|lia|]|lia|exact (fun a H => H)].
      intros a [Ba Na]. eapply sp_bind; [apply asg_nonneg_sp; rewrite ?Ba; unfold nonneg; auto|lia|].
      intros r Hr; cbv beta in Hr. eapply sp_weak; [apply (negate_sp r (n + 1)); auto; lia|lia|]. intros c [Bc _]. unfold fits. rewrite Bc. exact Hr. }
    cbn [addsub_assign_c rd] in *. rewrite Nx, Ny in *. destruct s; exact G.
  - assert (G : spends (ny <-- op_neg_c (rd x o) ;;; addsub_assign_c (S f) (negb s) x (Some ny)) (23 * n) (fits (n + 1))).
    { eapply sp_weak; [eapply (sp_bind _ _ (2 * n) (16 * n)); [apply op_neg_sp; auto|lia|]|lia|exact (fun a H => H)].
      intros a [Ba Na]. apply asg_nonneg_sp; rewrite ?Ba; unfold nonneg; auto. }
    cbn [addsub_assign_c] in *. rewrite Nx, Ny in *. destruct s; exact G.
  - assert (E : addsub_assign_c (S (S f)) s x o = addsub_assign_c (S (S f)) s x (Some (rd x o))).
    { destruct o; [reflexivity|]. cbn [rd] in *. destruct (asg_alias (S (S f)) s x) as [E|E]; [exact E|congruence]. }
    rewrite E. eapply sp_weak; [apply asg_nonneg_sp; eauto|lia|auto].
Qed.
