(** Multiplication. *)
From Verif Require Import Base IntModel IntSpec IntBasics IntAddSub.
From Coq Require Import ZifyBool.

Lemma val_nonneg_aval x : nonneg x -> val x = aval x.
Proof. unfold nonneg. intros H. rewrite val_aval, H. reflexivity. Qed.

Lemma nonneg_canonical x : wf x -> trimmed (bins x) -> nonneg x -> canonical x.
Proof. intros [_ W] T N. destruct x as [l n]. unfold nonneg in N. cbn in *. subst n. apply mk_canonical; auto. discriminate. Qed.

Lemma mbi_loop_spec xs : forall y i r, Forall digit_ok xs -> 0 <= y <= INT32_MAX -> canonical r -> nonneg r ->
  exists r', mbi_loop xs y i r = Ok r' /\ canonical r' /\ nonneg r' /\ aval r' = aval r + pw i * (y * bins_val xs).
Proof.
  induction xs as [|b xs IH]; intros y i r Hd Hy Cr Nr; cbn [mbi_loop bins_val].
  - exists r. splits; auto. lia.
  - inversion Hd as [|? ? Hb Hd']; subst. unfold digit_ok in Hb. unfold INT32_MAX in Hy.
    assert (0 <= y * b <= 2147483647 * B) by nia.
    rewrite i64_ok by (unfold INT64_MIN, INT64_MAX; lia). cbn [bind].
    destruct (Int_of_int64_ok (y * b) i) as [t [E1 [V1 [C1 [N1 _]]]]]; [unfold INT64_MIN, INT64_MAX; lia|].
    rewrite E1. cbn [bind]. assert (Nt : nonneg t) by (unfold nonneg; lia).
    destruct (add_assign_nonneg r t) as [r1 [E2 [W2 [N2 [V2 [T1 [T2 _]]]]]]]; auto.
    assert (C2 : canonical r1).
    { apply nonneg_canonical; auto. destruct (le_lt_dec (size t) (size r)); [apply T1|apply T2]; auto. lia. }
    rewrite E2. cbn [bind]. destruct (IH y (S i) r1 Hd' Hy C2 N2) as [r' [E3 [C3 [N3 V3]]]].
    exists r'. splits; auto. rewrite V3, V2, pw_S. rewrite (val_nonneg_aval t Nt) in V1. rewrite V1. lia.
Qed.

Lemma canonical_zero : canonical (mkInt [0] false).
Proof. apply canonicalb_spec. reflexivity. Qed.

Lemma multiply_by_int_ok x y : wf x -> 0 <= y <= INT32_MAX ->
  exists r, multiply_by_int x y = Ok r /\ canonical r /\ nonneg r /\ aval r = aval x * y /\ val r = aval x * y.
Proof.
  intros [_ Hd] Hy. unfold multiply_by_int, set_value. rewrite abs32_0. cbn [bind].
  destruct (mbi_loop_spec (bins x) y 0 (mkInt [0] (0 <? 0)) Hd Hy canonical_zero eq_refl) as [r [E [C [N V]]]].
  assert (aval r = aval x * y). { rewrite V. unfold aval at 1. cbn [bins bins_val]. rewrite pw_0. unfold aval. lia. }
  exists r. splits; auto. rewrite val_nonneg_aval by assumption. assumption.
Qed.

(** multiply *)
Lemma size_pos x : wf x -> (size x >= 1)%nat.
Proof. intros [H _]. unfold size. destruct (bins x); [congruence|cbn; lia]. Qed.
Lemma aval_lt_pw x : wf x -> aval x < pw (size x).
Proof. intros [_ H]. apply bins_val_bound, H. Qed.

Lemma size_aval_lower x : wf x -> trimmed (bins x) -> aval x <> 0 -> pw (size x - 1) <= aval x.
Proof.
  intros W T NZ. unfold size, aval in *. destruct (le_lt_dec (length (bins x)) 1).
  - pose proof (size_pos x W). unfold size in *. replace (length (bins x) - 1)%nat with 0%nat by lia. rewrite pw_0.
    pose proof (bins_val_nonneg _ (proj2 W)). lia.
  - apply trimmed_lower; auto. apply W.
Qed.

Lemma size_le_of_aval x n : wf x -> trimmed (bins x) -> (1 <= n)%nat -> aval x < pw n -> (size x <= n)%nat.
Proof.
  intros W T Hn H. destruct (le_lt_dec (size x) n); [assumption|].
  assert (size x > 1)%nat by lia.
  pose proof (trimmed_lower _ (proj2 W) T ltac:(unfold size in *; lia)).
  pose proof (pw_le n (length (bins x) - 1) ltac:(unfold size in *; lia)). unfold aval in *. lia.
Qed.

Lemma size_ge_of_aval x n : wf x -> pw n <= aval x -> (size x > n)%nat.
Proof.
  intros W H. pose proof (aval_lt_pw x W). destruct (le_lt_dec (size x) n); [|lia].
  pose proof (pw_le _ _ l). lia.
Qed.

Lemma mul_loop_spec x ys : wf x -> forall i r, Forall digit_ok ys -> wf r -> nonneg r ->
  (size r <= size x + i)%nat -> aval r < pw (size x + i) ->
  exists r', mul_loop x ys i r = Ok r' /\ wf r' /\ nonneg r' /\ aval r' = aval r + pw i * (aval x * bins_val ys) /\
    (trimmed (bins x) -> aval x <> 0 -> ys <> [] -> last ys 0 <> 0 -> trimmed (bins r')) /\
    (i = 0%nat -> length ys = 1%nat -> trimmed (bins r) -> trimmed (bins r')) /\
    (aval x = 0 -> aval r = 0 -> size r = Nat.max 1 i -> size r' = Nat.max 1 (i + length ys)).
Proof.
  intros Hx. induction ys as [|y ys IH]; intros i r Hd Wr Nr Sr Vr; cbn [mul_loop bins_val].
  - exists r. splits; auto; try lia; try congruence. cbn [length]. intros. lia.
  - inversion Hd as [|? ? Hy Hd']; subst. unfold digit_ok in Hy.
    destruct (multiply_by_int_ok x y Hx ltac:(unfold INT32_MAX; lia)) as [b [E1 [C1 [N1 [V1 _]]]]].
    rewrite E1. cbn [bind].
    destruct (Int_shifted_spec b i ltac:(auto)) as [Wb [_ [Tb Vb]]].
    assert (Nb : nonneg (Int_shifted b i)) by exact N1.
    assert (Sb : size (Int_shifted b i) = (i + size b)%nat).
    { unfold size, Int_shifted. cbn [bins]. rewrite app_length, repeat_length. reflexivity. }
    destruct (add_assign_nonneg r (Int_shifted b i)) as [r1 [E2 [W2 [N2 [V2 [T1 [T2 [L2 [G1 G2]]]]]]]]]; auto.
    rewrite E2. cbn [bind].
    pose proof (aval_nonneg x Hx) as Ax. pose proof (aval_lt_pw x Hx) as Ux.
    pose proof (pw_pos i) as Pi. pose proof (aval_nonneg r Wr) as Ar.
    assert (Vr1 : aval r1 = aval r + pw i * (aval x * y)) by (rewrite V2, Vb, V1; lia).
    assert (Ur1 : aval r1 < pw (size x + S i)).
    { rewrite Vr1. rewrite pw_add in *. rewrite pw_S. pose proof (pw_pos (size x)).
      assert (pw i * (aval x * y) <= pw i * ((pw (size x) - 1) * (B - 1))).
      { apply Z.mul_le_mono_nonneg_l; [lia|]. apply Z.mul_le_mono_nonneg; lia. }
      nia. }
    pose proof (size_pos x Hx) as Sx.
    assert (Sb2 : (size b <= S (size x))%nat).
    { apply size_le_of_aval; auto; try lia. rewrite V1, pw_S. nia. }
    assert (Sr1 : (size r1 <= size x + S i)%nat).
    { apply L2; auto; [lia|]. rewrite Sb. lia. }
    destruct (IH (S i) r1 Hd' W2 N2 Sr1 Ur1) as [r' [E3 [W3 [N3 [V3 [T3 [T4 Z3]]]]]]].
    exists r'. splits; auto.
    + rewrite V3, Vr1, pw_S. lia.
    + intros Tx Nx _ Hl. destruct ys as [|y2 ys].
      * cbn in Hl. cbn [mul_loop] in E3. inversion E3; subst r'. apply T2.
        -- rewrite Sb. assert (size b >= size x)%nat; [|lia].
           pose proof (size_ge_of_aval b (size x - 1) ltac:(auto)) as G.
           pose proof (size_aval_lower x Hx Tx Nx). rewrite V1 in G. specialize (G ltac:(nia)). lia.
        -- apply Tb; auto. rewrite V1. nia.
      * apply T3; auto. discriminate.
    + intros -> Hl Tr. cbn in Hl. destruct ys; [|cbn in Hl; lia].
      cbn [mul_loop] in E3. inversion E3; subst r'.
      assert (bins (Int_shifted b 0) = bins b) by reflexivity.
      destruct (le_lt_dec (size (Int_shifted b 0)) (size r)).
      * apply T1; auto.
      * apply T2; [lia|]. rewrite H. auto.
    + intros Zx Zr Szr. cbn [length]. rewrite Z3; auto.
      * lia.
      * rewrite Vr1, Zx, Zr. lia.
      * assert (Zb : aval b = 0) by (rewrite V1, Zx; lia).
        assert (size b = 1%nat).
        { pose proof (size_le_of_aval b 1 ltac:(auto) ltac:(auto) ltac:(lia)) as K. rewrite Zb in K.
          specialize (K (pw_pos 1)). pose proof (size_pos b ltac:(auto)). lia. }
        assert (size r1 <= S i)%nat.
        { apply L2; [lia|rewrite Sb; lia|]. rewrite Vr1, Zx, Zr. pose proof (pw_pos (S i)). lia. }
        rewrite Sb in G2. lia.
Qed.

Lemma multiply_ok x y : wf x -> wf y ->
  exists r, multiply x y = Ok r /\ wf r /\ nonneg r /\ aval r = aval x * aval y /\
    (trimmed (bins x) -> aval x <> 0 -> trimmed (bins y) -> trimmed (bins r)) /\
    (size y = 1%nat -> trimmed (bins r)) /\
    (aval x = 0 -> size r = size y).
Proof.
  intros Hx Hy. unfold multiply, set_value. rewrite abs32_0. cbn [bind].
  destruct (mul_loop_spec x (bins y) Hx 0 (mkInt [0] (0 <? 0))) as [r [E [W [N [V [T1 [T2 Z]]]]]]].
  { apply Hy. } { apply canonical_wf, canonical_zero. } { reflexivity. }
  { pose proof (size_pos x Hx). unfold size at 1. cbn [bins length]. lia. }
  { unfold aval. cbn [bins bins_val]. pose proof (pw_pos (size x + 0)). lia. }
  exists r. pose proof (size_pos y Hy) as Sy.
  splits; auto.
  - rewrite V, pw_0. unfold aval at 1. cbn [bins bins_val]. unfold aval. lia.
  - intros Tx Nx Ty. destruct (le_lt_dec (size y) 1).
    + apply T2; auto; [unfold size in *; lia|]. apply trimmed_single.
    + apply T1; auto; [apply Hy|]. apply Ty. unfold size in *. lia.
  - intros S1. apply T2; auto. apply trimmed_single.
  - intros Zx. rewrite Z; auto. unfold size in *. lia.
Qed.

(** operator* *)
Lemma op_mul_gen x y : wf x -> wf y ->
  exists r, op_mul x y = Ok r /\ wf r /\ val r = val x * val y /\ (val r = 0 -> negative r = false) /\
    (trimmed (bins x) -> trimmed (bins y) -> canonical r).
Proof.
  intros Hx Hy. unfold op_mul.
  assert (G : exists r, (if (size y <? size x)%nat then multiply x y else multiply y x) = Ok r /\ wf r /\ nonneg r /\
     aval r = aval x * aval y /\ (trimmed (bins x) -> trimmed (bins y) -> trimmed (bins r))).
  { destruct (Nat.ltb_spec (size y) (size x)).
    - destruct (multiply_ok x y Hx Hy) as [r [E [W [N [V [T1 [T2 _]]]]]]]. exists r. splits; auto.
      intros Tx Ty. apply T1; auto. pose proof (size_pos y Hy).
      pose proof (trimmed_lower _ (proj2 Hx) Tx ltac:(unfold size in *; lia)) as L.
      pose proof (pw_pos (length (bins x) - 1)). unfold aval. lia.
    - destruct (multiply_ok y x Hy Hx) as [r [E [W [N [V [T1 [T2 _]]]]]]]. exists r. splits; auto; [lia|].
      intros Tx Ty. pose proof (size_pos x Hx). destruct (le_lt_dec (size x) 1).
      + apply T2. lia.
      + apply T1; auto.
        pose proof (trimmed_lower _ (proj2 Hy) Ty ltac:(unfold size in *; lia)) as L.
        pose proof (pw_pos (length (bins y) - 1)). unfold aval. lia. }
  destruct G as [r [E [W [N [V T]]]]]. rewrite E. cbn [bind].
  assert (Vr : val r = aval x * aval y) by (rewrite val_nonneg_aval; auto).
  assert (Vxy : val x * val y = if xorb (negative x) (negative y) then - (aval x * aval y) else aval x * aval y).
  { rewrite !val_aval. destruct (negative x), (negative y); cbn [xorb]; lia. }
  destruct (xorb (negative x) (negative y)).
  - destruct (negate_ok r W) as [r' [E' [V' [B' [W' [Z' [N' C']]]]]]]. exists r'. splits; auto. lia.
  - exists r. splits; auto; [lia|]. intros. apply nonneg_canonical; auto.
Qed.

Lemma op_mul_ok x y : wf x -> wf y -> trimmed (bins x) -> trimmed (bins y) ->
  exists r, op_mul x y = Ok r /\ canonical r /\ val r = val x * val y.
Proof. intros Hx Hy Tx Ty. destruct (op_mul_gen x y Hx Hy) as [r [E [W [V [Z C]]]]]. exists r. splits; auto. Qed.

(** operator*= *)
Lemma mul_assign_ok x o : wf x -> (forall y, o = Some y -> wf y) ->
  exists r, mul_assign x o = Ok r /\ wf r /\ val r = val x * val (rd x o) /\
    negative r = xorb (negative x) (negative (rd x o)) /\
    (trimmed (bins x) -> trimmed (bins (rd x o)) -> aval x <> 0 \/ size (rd x o) = 1%nat -> trimmed (bins r)) /\
    (aval x = 0 -> bins r = repeat 0 (size (rd x o))).
Proof.
  intros Hx Ho. unfold mul_assign. set (y := rd x o).
  assert (Hy : wf y) by (subst y; destruct o; cbn; auto).
  destruct (multiply_ok x y Hx Hy) as [r [E [W [N [V [T1 [T2 Z]]]]]]]. rewrite E. cbn [bind].
  eexists; split; [reflexivity|]. cbn [bins negative]. splits; auto.
  - unfold val. cbn [bins negative]. fold (aval r). fold (aval x). fold (aval y). rewrite V.
    destruct (negative x), (negative y); cbn [xorb]; lia.
  - intros Tx Ty [H|H]; auto.
  - intros Zx. specialize (Z Zx).
    assert (F : Forall (fun b => b = 0) (bins r)).
    { apply bins_val_0_iff; [apply W|]. fold (aval r). rewrite V, Zx. lia. }
    unfold size in *. clear - F Z. revert Z. generalize (length (bins y)). induction F; intros n Z; cbn in Z; subst n.
    + reflexivity.
    + cbn [repeat]. subst. f_equal. apply IHF. reflexivity.
Qed.
