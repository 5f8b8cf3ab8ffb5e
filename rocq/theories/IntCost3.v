(** Bounds on the rounds of products of Ints, from above and from below. *)
From Coq Require Import ZifyBool.
From Verif Require Import Base IntModel IntSpec IntBasics IntAddSub IntMul IntDiv IntSize CostModel CostProofs IntCostModel IntCost IntCost2.
Local Open Scope list_scope.
Local Open Scope Z_scope.

Lemma push_sp e : forall f x, 0 <= x < pw e -> (1 <= e)%nat -> spends (push_c f x) (Z.of_nat e - 1) (fun r => len r <= Z.of_nat e /\ (0 < x -> 1 <= len r)).
Proof.
  induction e as [|e IH]; intros f x Hx He; [lia|]. destruct f as [|f]; cbn [push_c].
  - eapply sp_weak; [apply sp_free; intros a Ha; discriminate Ha|lia|exact (fun a H => H)].
  - rewrite pw_S in Hx. unfold BIN_LIMIT. destruct (Z.geb_spec x B).
    + destruct e as [|e]; [rewrite pw_0 in Hx; lia|].
      assert (Hq : 0 <= x ÷ B < pw (S e)). { rewrite Z.quot_div_nonneg by lia. split; [apply Z.div_pos; lia|apply Z.div_lt_upper_bound; lia]. }
      eapply sp_weak; [apply sp_lap; eapply (sp_bind _ _ (Z.of_nat (S e) - 1) 0); [apply IH; [exact Hq|lia]|lia|]|lia|exact (fun a H => H)].
      intros r [H1 H2]. apply sp_ok. rewrite len_cons. pose proof (len_nonneg r). lia.
    + eapply sp_weak; [apply sp_free; intros a Ha; exact Ha|lia|]. cbv beta. intros a Ha. destruct (Z.gtb_spec x 0); injection Ha as <-; cbn; lia.
Qed.
Lemma of_int64_sp e x i : 0 <= x < pw e -> (1 <= e)%nat -> spends (of_int64_c x i) (Z.of_nat e - 1)
  (fun r => nonneg r /\ len (bins r) <= Z.of_nat i + Z.of_nat e /\ (0 < x -> Z.of_nat i + 1 <= len (bins r))).
Proof.
  intros Hx He. unfold of_int64_c. destruct (Z.ltb_spec x 0); [lia|]. destruct (Z.eqb_spec x 0) as [->|N].
  - eapply sp_weak; [apply sp_free; intros a Ha; exact Ha|lia|]. cbv beta. intros a Ha. injection Ha as <-. cbn [bins len length]. splits; [reflexivity|cbn; lia|lia].
  - eapply sp_weak; [eapply (sp_bind _ _ _ 0); [apply push_sp; eauto|lia|]|lia|exact (fun a H => H)].
    intros r [H1 H2]. apply sp_ok. cbn [bins negative]. rewrite len_app, len_repeat. splits; [reflexivity|lia|lia].
Qed.
Lemma asg_add_sp x y : nonneg x -> nonneg y -> spends (add_assign_c x (Some y)) (len (bins y) + Z.max (len (bins x)) (len (bins y)))
  (fun r => nonneg r /\ Z.max (len (bins x)) (len (bins y)) <= len (bins r) <= Z.max (len (bins x)) (len (bins y)) + 1).
Proof.
  intros Nx Ny. unfold add_assign_c, nonneg in *. cbn [addsub_assign_c rd]. rewrite Nx, Ny. cbn [andb negb].
  eapply sp_bind; [apply copy_sp; apply Z.le_refl|pose proof (len_nonneg (bins x)); lia|]. intros c <-.
  eapply sp_weak; [apply add_sp|lia|]. intros a [H1 H2]. rewrite H2, Nx. split; [reflexivity|exact H1].
Qed.

(** y is below 10^(9 (e - 1)), or 0. *)
Lemma mbi_loop_sp e xs : forall y i r, (1 <= e)%nat -> Forall digit_ok xs -> 0 <= y -> y * (B - 1) < pw e -> nonneg r -> len (bins r) <= Z.of_nat i + Z.of_nat e ->
  spends (mbi_loop_c xs y i r) (len xs * (2 * Z.of_nat i + len xs - 1 + 3 * Z.of_nat e)) (fun r' => nonneg r' /\ len (bins r') <= Z.of_nat i + len xs + Z.of_nat e).
Proof.
  induction xs as [|b xs IH]; intros y i r He D Hy Hb Nr Lr; cbn [mbi_loop_c].
  - eapply sp_weak; [apply sp_ok; exact (eq_refl r)|cbn; lia|]. intros a <-. cbn. split; [exact Nr|lia].
  - inversion D as [|? ? D1 D2]; subst. unfold digit_ok in D1. rewrite len_cons. pose proof (len_nonneg xs) as Lx. set (k := len xs) in *.
    assert (P : 0 <= y * b < pw e) by nia.
    eapply sp_weak; [apply sp_lap; eapply (sp_bind _ _ 0 ((Z.of_nat e - 1) + ((2 * Z.of_nat i + 2 * Z.of_nat e) + k * (2 * Z.of_nat (S i) + k - 1 + 3 * Z.of_nat e)))) with (Q1 := fun p => p = y * b)|nia|exact (fun a H => H)].
    + apply sp_free. intros a Ha. unfold i64 in Ha. destruct (in_int64 _); [congruence|discriminate].
    + nia.
    + intros p ->. eapply sp_bind; [apply of_int64_sp; [exact P|auto]|nia|]. intros t (Nt & Lt & _).
      eapply sp_bind; [eapply sp_weak; [apply asg_add_sp; auto|lia|exact (fun a H => H)]|nia|].
      intros r' [Nr' Lr']. eapply sp_weak; [apply IH; auto; lia|fold k; lia|]. intros a [Na La]. fold k in La. split; [auto|lia].
Qed.
Lemma mbi_sp e x y : (1 <= e)%nat -> Forall digit_ok (bins x) -> 0 <= y -> y * (B - 1) < pw e ->
  spends (multiply_by_int_c x y) (len (bins x) * (len (bins x) - 1 + 3 * Z.of_nat e)) (fun r => nonneg r /\ len (bins r) <= len (bins x) + Z.of_nat e).
Proof.
  intros He D Hy Hb. unfold multiply_by_int_c.
  assert (K : 0 <= len (bins x) * (len (bins x) - 1 + 3 * Z.of_nat e)) by (pose proof (len_nonneg (bins x)); nia).
  eapply sp_weak; [eapply (sp_bind _ _ 0) with (Q1 := fun z => z = mkInt [0] false); [apply sp_free|exact K|]|lia|exact (fun a H => H)].
  - intros a Ha. injection Ha as <-. reflexivity.
  - intros z ->. eapply sp_weak; [apply (mbi_loop_sp e); auto; [reflexivity|cbn; lia]|cbn [Z.of_nat]; lia|]. intros a [Na La]. split; [auto|lia].
Qed.
Lemma mul_loop_sp x ys : forall i r, Forall digit_ok (bins x) -> Forall digit_ok ys -> nonneg r -> len (bins r) <= len (bins x) + 2 + Z.of_nat i ->
  let n := len (bins x) in let k := len ys in
  spends (mul_loop_c x ys i r) (k * (n * n + 8 * n + 6 + 2 * Z.of_nat i + k)) (fun r' => nonneg r' /\ len (bins r') <= n + 2 + Z.of_nat i + k).
Proof.
  induction ys as [|b ys IH]; intros i r Dx D Nr Lr n k; cbn [mul_loop_c].
  - eapply sp_weak; [apply sp_ok; exact (eq_refl r)|cbn; lia|]. intros a <-. cbn. split; [exact Nr|]. unfold n. lia.
  - inversion D as [|? ? D1 D2]; subst. unfold digit_ok in D1. unfold k. rewrite len_cons. clear k. pose proof (len_nonneg ys) as Lx. set (k := len ys) in *.
    pose proof (len_nonneg (bins x)) as Ln. fold n in Ln, Lr.
    eapply sp_weak; [apply sp_lap; eapply (sp_bind _ _ (n * (n + 5)) ((n + 2) + (2 * (n + 2 + Z.of_nat i) + k * (n * n + 8 * n + 6 + 2 * Z.of_nat (S i) + k))))|nia|exact (fun a H => H)].
    + eapply sp_weak; [apply (mbi_sp 2 x b); auto; try lia|fold n; lia|exact (fun a H => H)].
      change (pw 2) with (B * B). nia.
    + nia.
    + intros p [Np Lp]. fold n in Lp. eapply sp_bind with (Q1 := fun s => s = Int_shifted p i); [split; [cbn; lia|]|nia|].
      * intros a Ha. injection Ha as <-. reflexivity.
      * intros s ->. assert (Ls : len (bins (Int_shifted p i)) = Z.of_nat i + len (bins p)). { cbn [Int_shifted bins]. rewrite len_app, len_repeat. reflexivity. }
        eapply sp_bind; [eapply sp_weak; [apply asg_add_sp; auto|rewrite Ls; lia|exact (fun a H => H)]|nia|].
        intros r' [Nr' Lr']. rewrite Ls in Lr'. eapply sp_weak; [apply IH; auto; fold n; lia|fold n k; lia|]. intros a [Na La]. fold n k in La. split; [auto|lia].
Qed.
Lemma multiply_sp x y : Forall digit_ok (bins x) -> Forall digit_ok (bins y) -> let n := len (bins x) in let m := len (bins y) in
  spends (multiply_c x y) (m * (n * n + 8 * n + m + 6)) (fun r => nonneg r /\ len (bins r) <= n + m + 2).
Proof.
  intros Dx Dy n m. unfold multiply_c. pose proof (len_nonneg (bins x)) as Ln. pose proof (len_nonneg (bins y)) as Lm. fold n in Ln. fold m in Lm.
  assert (K : 0 <= m * (n * n + 8 * n + m + 6)) by nia.
  eapply sp_weak; [eapply (sp_bind _ _ 0) with (Q1 := fun z => z = mkInt [0] false); [apply sp_free|exact K|]|lia|exact (fun a H => H)].
  - intros a Ha. injection Ha as <-. reflexivity.
  - intros z ->. eapply sp_weak; [apply mul_loop_sp; auto; [reflexivity|cbn; fold n; lia]|fold n m; cbn [Z.of_nat]; lia|]. intros a [Na La]. fold n m in La. split; [auto|lia].
Qed.
Lemma op_mul_sp x y : wf x -> wf y -> let n := Z.max (len (bins x)) (len (bins y)) in let m := Z.min (len (bins x)) (len (bins y)) in
  spends (op_mul_c x y) (m * (n * n + 8 * n + m + 6) + (n + m + 2)) (fun r => len (bins r) <= n + m + 2).
Proof.
  intros Hx Hy n m. unfold op_mul_c.
  pose proof (len_nonneg (bins x)) as Ln. pose proof (len_nonneg (bins y)) as Lm.
  assert (M : spends (if (size y <? size x)%nat then multiply_c x y else multiply_c y x) (m * (n * n + 8 * n + m + 6)) (fun r => nonneg r /\ len (bins r) <= n + m + 2)).
  { unfold size. destruct (Nat.ltb_spec (length (bins y)) (length (bins x))).
    - replace n with (len (bins x)) by (unfold n, len; lia). replace m with (len (bins y)) by (unfold m, len; lia). apply multiply_sp; [apply Hx|apply Hy].
    - replace n with (len (bins y)) by (unfold n, len; lia). replace m with (len (bins x)) by (unfold m, len; lia). apply multiply_sp; [apply Hy|apply Hx]. }
  eapply sp_bind; [exact M|unfold n, m; lia|]. intros r [Nr Lr]. destruct (xorb _ _).
  - eapply sp_weak; [apply (negate_sp r (n + m + 2)); auto; unfold n, m; lia|lia|]. intros a [Ha _]. rewrite Ha. auto.
  - eapply sp_weak; [apply sp_ok; exact (eq_refl r)|unfold n, m; lia|]. intros a <-. exact Lr.
Qed.
Lemma mul_assign_sp x o : wf x -> wf (rd x o) -> let n := len (bins x) in let m := len (bins (rd x o)) in
  spends (mul_assign_c x o) (m * (n * n + 8 * n + m + 6)) (fun r => len (bins r) <= n + m + 2).
Proof.
  intros Hx Hy n m. unfold mul_assign_c. eapply sp_weak; [eapply (sp_bind _ _ _ 0); [apply multiply_sp; [apply Hx|apply Hy]|lia|]|fold n m; lia|exact (fun a H => H)].
  intros r [_ Lr]. apply sp_ok. exact Lr.
Qed.

(** From below: when the call returns it has taken at least k rounds. *)
Definition costs {A} (m : counted A) (k : Z) (Q : A -> Prop) : Prop := forall a, fst m = Ok a -> k <= snd m /\ Q a.
Lemma co_bind {A B} (m : counted A) (f : A -> counted B) k1 k2 Q1 Q : costs m k1 Q1 -> (forall a, Q1 a -> costs (f a) k2 Q) -> costs (cbind m f) (k1 + k2) Q.
Proof. intros H1 H2 b E. apply exact_cbind in E. destruct E as (a & E1 & E2 & ->). destruct (H1 a E1) as [H3 H4]. destruct (H2 a H4 b E2). split; [lia|auto]. Qed.
Lemma co_weak {A} (m : counted A) k k' (Q Q' : A -> Prop) : costs m k Q -> k' <= k -> (forall a, Q a -> Q' a) -> costs m k' Q'.
Proof. intros H L K a E. destruct (H a E). split; [lia|auto]. Qed.
Lemma co_free {A} (m : res A) (Q : A -> Prop) : (forall a, m = Ok a -> Q a) -> costs (free m) 0 Q.
Proof. intros H a E. split; [cbn; lia|auto]. Qed.
Lemma co_lap {A} (m : counted A) k Q : costs m k Q -> costs (lap m) (1 + k) Q.
Proof. intros H a E. destruct (H a E). split; [cbn; lia|auto]. Qed.
Lemma co_sp {A} (m : counted A) k (Q : A -> Prop) : 0 <= snd m -> spends m k Q -> costs m 0 Q.
Proof. intros H [_ K] a E. split; [lia|auto]. Qed.
Lemma co_and {A} (m : counted A) k k' (Q Q' : A -> Prop) : costs m k Q -> spends m k' Q' -> costs m k (fun a => Q a /\ Q' a).
Proof. intros H [_ K] a E. destruct (H a E). auto. Qed.

Lemma copy_co x : costs (copy_c x) (len (bins x)) (eq x).
Proof. intros a E. injection E as <-. cbn. split; [lia|auto]. Qed.
Lemma cbind_pos {A B} (m : counted A) (f : A -> counted B) : 0 <= snd m -> (forall a, 0 <= snd (f a)) -> 0 <= snd (cbind m f).
Proof. intros H K. destruct m as [[a| | | |] n]; cbn in *; auto. specialize (K a). lia. Qed.
Lemma add_carry_pos l : forall c, 0 <= snd (add_carry_c l c).
Proof.
  induction l as [|b l IH]; intros c; cbn [add_carry_c]; [cbn; lia|]. destruct (c =? 0); [cbn; lia|]. unfold lap. cbn [snd].
  enough (0 <= snd (sum <-- free (i32 (b + c));;; rest <-- add_carry_c l (Z.max 0 (sum ÷ BIN_LIMIT));;; free (Ok (Z.rem sum BIN_LIMIT :: rest)))) by lia.
  apply cbind_pos; [cbn; lia|]. intros s. apply cbind_pos; [apply IH|]. intros r. cbn. lia.
Qed.
Lemma add_loop_co xs : forall bs c, costs (add_loop_c bs xs c) (len xs) (fun _ => True).
Proof.
  induction xs as [|x xs IH]; intros bs c; cbn [add_loop_c].
  - intros a E. pose proof (add_carry_pos bs c). cbn. auto.
  - rewrite len_cons. apply co_lap. destruct bs as [|b bs]; [intros a E; discriminate E|].
    apply (co_weak _ (0 + (0 + (len xs + 0))) _ (fun _ => True)); [|lia|auto]. eapply co_bind with (Q1 := fun _ => True); [apply co_free; auto|intros t _].
    eapply co_bind with (Q1 := fun _ => True); [apply co_free; auto|intros s _]. eapply co_bind; [apply IH|]. intros r _. apply co_free. auto.
Qed.
Lemma add_co x y : costs (add_c x y) (len (bins y)) (fun r => Z.max (len (bins x)) (len (bins y)) <= len (bins r) /\ negative r = negative x).
Proof.
  eapply co_weak; [eapply co_and with (Q := fun _ => True); [|apply add_sp]|apply Z.le_refl|intros a [_ [H1 H2]]; split; [lia|auto]].
  unfold add_c. set (bs := if (_ <? _)%nat then _ else _). apply (co_weak _ (len (bins y) + 0) _ (fun _ => True)); [|lia|auto].
  eapply co_bind; [apply add_loop_co|]. intros r _. apply co_free. auto.
Qed.
Lemma asg_add_co x y : nonneg x -> nonneg y -> costs (add_assign_c x (Some y)) (2 * len (bins y)) (fun r => nonneg r /\ Z.max (len (bins x)) (len (bins y)) <= len (bins r)).
Proof.
  intros Nx Ny. unfold add_assign_c, nonneg in *. cbn [addsub_assign_c rd]. rewrite Nx, Ny. cbn [andb negb].
  eapply co_weak; [eapply co_bind; [apply copy_co|]|apply Z.eq_le_incl; apply Z.eq_sym|].
  - intros c <-. apply add_co.
  - lia.
  - intros a [H1 H2]. rewrite H2, Nx. auto.
Qed.
Lemma push_pos f : forall x, 0 <= snd (push_c f x).
Proof.
  induction f as [|f IH]; intros x; cbn [push_c]; [cbn; lia|]. destruct (_ >=? _); [|cbn; lia]. unfold lap. cbn [snd].
  enough (0 <= snd (rest <-- push_c f (x ÷ BIN_LIMIT);;; free (Ok (to_int32 (Z.rem x BIN_LIMIT) :: rest)))) by lia.
  apply cbind_pos; [apply IH|]. intros r. cbn. lia.
Qed.
Lemma of_int64_pos x i : 0 <= snd (of_int64_c x i).
Proof.
  unfold of_int64_c. destruct (_ <? _); [|destruct (_ =? _); [cbn; lia|]].
  - apply cbind_pos; [cbn; lia|]. intros n. apply cbind_pos; [apply push_pos|]. intros r. cbn. lia.
  - apply cbind_pos; [apply push_pos|]. intros r. cbn. lia.
Qed.
Definition no_zero (l : list Z) : Prop := Forall (fun b => 0 < b < B) l.
Lemma mbi_loop_co e xs : forall y i r, (1 <= e)%nat -> no_zero xs -> 0 < y -> y * (B - 1) < pw e -> nonneg r -> Z.of_nat i <= len (bins r) ->
  costs (mbi_loop_c xs y i r) (len xs * (2 * Z.of_nat i + len xs + 2)) (fun r' => nonneg r' /\ Z.of_nat i + len xs <= len (bins r')).
Proof.
  induction xs as [|b xs IH]; intros y i r He D Hy Hb Nr Lr; cbn [mbi_loop_c].
  - cbn. apply co_free. intros a E. injection E as <-. split; [auto|lia].
  - inversion D as [|? ? D1 D2]; subst. rewrite len_cons. pose proof (len_nonneg xs) as Lx. set (k := len xs) in *.
    assert (P : 0 <= y * b < pw e) by nia. assert (P0 : 0 < y * b) by nia.
    eapply co_weak; [apply co_lap; eapply (co_bind _ _ 0 (0 + (2 * (Z.of_nat i + 1) + k * (2 * Z.of_nat (S i) + k + 2)))) with (Q1 := fun p => p = y * b)|nia|exact (fun a H => H)].
    + apply co_free. intros a Ha. unfold i64 in Ha. destruct (in_int64 _); [congruence|discriminate].
    + intros p ->. eapply co_bind; [eapply co_sp; [apply of_int64_pos|apply (of_int64_sp e); [exact P|auto]]|].
      intros t (Nt & _ & Lt). specialize (Lt P0). eapply co_bind; [eapply co_weak; [apply asg_add_co; auto|lia|exact (fun a H => H)]|].
      intros r' [Nr' Lr']. eapply co_weak; [apply IH; auto; lia|fold k; lia|]. intros a [Na La]. fold k in La. split; [auto|lia].
Qed.
Lemma mbi_co e x y : (1 <= e)%nat -> no_zero (bins x) -> 0 < y -> y * (B - 1) < pw e ->
  costs (multiply_by_int_c x y) (len (bins x) * (len (bins x) + 2)) (fun r => nonneg r /\ len (bins x) <= len (bins r)).
Proof.
  intros He D Hy Hb. unfold multiply_by_int_c.
  eapply co_weak; [eapply (co_bind _ _ 0) with (Q1 := fun z => z = mkInt [0] false); [apply co_free|]|apply Z.eq_le_incl; apply Z.eq_sym|].
  - intros a Ha. injection Ha as <-. reflexivity.
  - intros z ->. apply (mbi_loop_co e (bins x) y 0 (mkInt [0] false) He D Hy Hb eq_refl). cbn. lia.
  - cbn [Z.of_nat]. lia.
  - intros a [Na La]. split; [auto|lia].
Qed.
Lemma mul_loop_co x ys : forall i r, no_zero (bins x) -> no_zero ys -> nonneg r ->
  let n := len (bins x) in let k := len ys in
  costs (mul_loop_c x ys i r) (k * (n * n + 5 * n + 2 * Z.of_nat i + k)) (fun _ => True).
Proof.
  induction ys as [|b ys IH]; intros i r Dx D Nr n k; cbn [mul_loop_c].
  - cbn. apply co_free. auto.
  - inversion D as [|? ? D1 D2]; subst. unfold k. rewrite len_cons. clear k. pose proof (len_nonneg ys) as Lx. set (k := len ys) in *.
    pose proof (len_nonneg (bins x)) as Ln. fold n in Ln.
    eapply co_weak; [apply co_lap; eapply (co_bind _ _ (n * (n + 2)) (n + (2 * (n + Z.of_nat i) + k * (n * n + 5 * n + 2 * Z.of_nat (S i) + k))))|nia|exact (fun a H => H)].
    + eapply co_weak; [apply (mbi_co 2 x b); auto; try lia|fold n; lia|exact (fun a H => H)].
      change (pw 2) with (B * B). nia.
    + intros p [Np Lp]. fold n in Lp. eapply co_bind with (Q1 := fun s => s = Int_shifted p i).
      * intros a Ha. injection Ha as <-. cbn. split; [lia|reflexivity].
      * intros s ->. assert (Ls : len (bins (Int_shifted p i)) = Z.of_nat i + len (bins p)). { cbn [Int_shifted bins]. rewrite len_app, len_repeat. reflexivity. }
        eapply co_bind; [eapply co_weak; [apply asg_add_co; auto|rewrite Ls; lia|exact (fun a H => H)]|].
        intros r' [Nr' _]. eapply co_weak; [apply IH; auto|fold n k; lia|auto].
Qed.
Lemma multiply_co x y : no_zero (bins x) -> no_zero (bins y) -> let n := len (bins x) in let m := len (bins y) in
  costs (multiply_c x y) (m * (n * n + 5 * n + m)) (fun _ => True).
Proof.
  intros Dx Dy n m. unfold multiply_c.
  apply (co_weak _ (0 + m * (n * n + 5 * n + 2 * Z.of_nat 0 + m)) _ (fun _ => True)); [|cbn [Z.of_nat]; lia|auto].
  eapply co_bind with (Q1 := fun z => z = mkInt [0] false); [apply co_free; intros a Ha; injection Ha as <-; reflexivity|].
  intros z ->. apply mul_loop_co; auto. reflexivity.
Qed.
Lemma zero_run_pos l : 0 <= zero_run l. Proof. apply zero_run_le. Qed.
Lemma equals_pos x v : 0 <= snd (equals_c x v).
Proof. unfold equals_c. cbn [snd]. destruct (bins x); [lia|apply zero_run_pos]. Qed.
Lemma negate_pos x : 0 <= snd (negate_c x).
Proof. unfold negate_c. apply cbind_pos; [apply equals_pos|]. intros []; cbn; lia. Qed.
Lemma op_mul_co x y : no_zero (bins x) -> no_zero (bins y) -> let n := Z.max (len (bins x)) (len (bins y)) in let m := Z.min (len (bins x)) (len (bins y)) in
  costs (op_mul_c x y) (m * (n * n + 5 * n + m)) (fun _ => True).
Proof.
  intros Dx Dy n m. unfold op_mul_c.
  assert (M : costs (if (size y <? size x)%nat then multiply_c x y else multiply_c y x) (m * (n * n + 5 * n + m)) (fun _ => True)).
  { unfold size. destruct (Nat.ltb_spec (length (bins y)) (length (bins x))).
    - replace n with (len (bins x)) by (unfold n, len; lia). replace m with (len (bins y)) by (unfold m, len; lia). apply multiply_co; auto.
    - replace n with (len (bins y)) by (unfold n, len; lia). replace m with (len (bins x)) by (unfold m, len; lia). apply multiply_co; auto. }
  apply (co_weak _ (m * (n * n + 5 * n + m) + 0) _ (fun _ => True)); [|lia|auto].
  eapply co_bind; [exact M|]. intros r _. destruct (xorb _ _); [|apply co_free; auto].
  intros a E. split; [apply negate_pos|auto].
Qed.
Lemma mul_assign_co x o : no_zero (bins x) -> no_zero (bins (rd x o)) -> let n := len (bins x) in let m := len (bins (rd x o)) in
  costs (mul_assign_c x o) (m * (n * n + 5 * n + m)) (fun _ => True).
Proof.
  intros Dx Dy n m. unfold mul_assign_c. apply (co_weak _ (m * (n * n + 5 * n + m) + 0) _ (fun _ => True)); [|lia|auto].
  eapply co_bind; [apply multiply_co; auto|]. intros r _. apply co_free. auto.
Qed.
