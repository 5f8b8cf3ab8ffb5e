(** Addition and subtraction. *)
From Verif Require Import Base IntModel IntSpec IntBasics.
From Coq Require Import ZifyBool.

(** A list with no redundant leading zero, decided. *)
Definition trimmedb (l : list Z) : bool := (length l <=? 1)%nat || negb (last l 0 =? 0).
Lemma trimmedb_spec l : l <> [] -> trimmedb l = true <-> trimmed l.
Proof.
  intros Hn. unfold trimmedb, trimmed. split.
  - intros H. split; [assumption|]. intros. lia.
  - intros [_ H]. destruct (Nat.leb_spec (length l) 1); [reflexivity|]. specialize (H ltac:(lia)).
    cbn. lia.
Qed.

Lemma trimmed_of_lower l : l <> [] -> Forall digit_ok l ->
  ((length l > 1)%nat -> pw (length l - 1) <= bins_val l) -> trimmed l.
Proof.
  intros Hn Hd H. split; [assumption|]. intros L E. specialize (H L).
  rewrite bins_val_last, E in H by assumption. rewrite (length_snoc l Hn) in H.
  replace (S (length (removelast l)) - 1)%nat with (length (removelast l)) in H by lia.
  pose proof (bins_val_bound _ (Forall_removelast _ _ Hd)). lia.
Qed.

Lemma quot_rem_carry s : 0 <= s < 2 * B ->
  let q := Z.max 0 (Z.quot s B) in 0 <= q <= 1 /\ s = Z.rem s B + B * q /\ 0 <= Z.rem s B < B.
Proof. intros H q. subst q. Z.to_euclidean_division_equations. lia. Qed.

Lemma add_carry_spec bs : forall c, Forall digit_ok bs -> 0 <= c <= 1 ->
  exists bs', add_carry bs c = Ok bs' /\ bins_val bs' = bins_val bs + c /\ Forall digit_ok bs' /\
    (length bs' = length bs \/ (length bs' = S (length bs) /\ pw (length bs) <= bins_val bs')).
Proof.
  induction bs as [|b bs IH]; intros c Hd Hc; cbn [add_carry].
  - destruct (Z.eqb_spec c 0).
    + subst. eexists; split; [reflexivity|]. splits; auto.
    + eexists; split; [reflexivity|]. assert (c = 1) by lia. subst. splits.
      * cbn. lia.
      * constructor; [unfold digit_ok; lia|constructor].
      * right. cbn. rewrite pw_0. lia.
  - destruct (Z.eqb_spec c 0).
    + subst. eexists; split; [reflexivity|]. splits; auto. lia.
    + inversion Hd as [|? ? Hb Hd']; subst. unfold digit_ok in Hb.
      rewrite i32_ok by (unfold INT32_MIN, INT32_MAX; lia). cbn [bind].
      unfold BIN_LIMIT. destruct (quot_rem_carry (b + c) ltac:(lia)) as [Q1 [Q2 Q3]].
      destruct (IH _ Hd' Q1) as [bs' [E1 [E2 [E3 E4]]]].
      rewrite E1. cbn [bind]. eexists; split; [reflexivity|]. splits.
      * cbn [bins_val]. rewrite E2. lia.
      * constructor; [exact Q3|assumption].
      * cbn [length bins_val]. rewrite !pw_S. destruct E4 as [E4|[E4 E5]]; [left; lia|right]. lia.
Qed.

Lemma add_loop_spec xs : forall bs c, Forall digit_ok bs -> Forall digit_ok xs -> (length xs <= length bs)%nat ->
  0 <= c <= 1 ->
  exists bs', add_loop bs xs c = Ok bs' /\ bins_val bs' = bins_val bs + bins_val xs + c /\ Forall digit_ok bs' /\
    (length bs' = length bs \/ (length bs' = S (length bs) /\ pw (length bs) <= bins_val bs')).
Proof.
  induction xs as [|x xs IH]; intros bs c Hb Hx Hl Hc; cbn [add_loop].
  - destruct (add_carry_spec bs c Hb Hc) as [bs' [E1 [E2 [E3 E4]]]].
    exists bs'. splits; auto. cbn [bins_val]. lia.
  - destruct bs as [|b bs]; cbn in Hl; [lia|].
    inversion Hb as [|? ? Hb0 Hb']; inversion Hx as [|? ? Hx0 Hx']; subst. unfold digit_ok in Hb0, Hx0.
    rewrite i32_ok by (unfold INT32_MIN, INT32_MAX; lia). cbn [bind].
    rewrite i32_ok by (unfold INT32_MIN, INT32_MAX; lia). cbn [bind].
    unfold BIN_LIMIT. destruct (quot_rem_carry (b + x + c) ltac:(lia)) as [Q1 [Q2 Q3]].
    destruct (IH bs _ Hb' Hx' ltac:(lia) Q1) as [bs' [E1 [E2 [E3 E4]]]].
    rewrite E1. cbn [bind]. eexists; split; [reflexivity|]. splits.
    + cbn [bins_val]. rewrite E2. lia.
    + constructor; [exact Q3|assumption].
    + cbn [length bins_val]. rewrite !pw_S. destruct E4 as [E4|[E4 E5]]; [left; lia|right]. lia.
Qed.

Lemma add__spec x y : wf x -> wf y ->
  exists r, add_ x y = Ok r /\ wf r /\ aval r = aval x + aval y /\ negative r = negative x /\
    ((size y <= size x)%nat -> trimmed (bins x) -> trimmed (bins r)) /\
    ((size x <= size y)%nat -> trimmed (bins y) -> trimmed (bins r)) /\
    (forall n, (size x <= n)%nat -> (size y <= n)%nat -> aval r < pw n -> (size r <= n)%nat) /\
    (size x <= size r)%nat /\ (size y <= size r)%nat.
Proof.
  intros [Hnx Hx] [Hny Hy]. unfold add_, aval, size.
  set (bs := if (length (bins x) <? length (bins y))%nat
            then bins x ++ repeat 0 (length (bins y) - length (bins x)) else bins x).
  assert (Hbs : Forall digit_ok bs /\ bins_val bs = bins_val (bins x) /\
      length bs = Nat.max (length (bins x)) (length (bins y))).
  { subst bs. destruct (Nat.ltb_spec (length (bins x)) (length (bins y))).
    - splits.
      + apply Forall_app; split; [assumption|apply Forall_repeat0].
      + rewrite bins_val_app, bins_val_repeat. lia.
      + rewrite app_length, repeat_length. lia.
    - splits; auto. lia. }
  destruct Hbs as [Hd [Hv Hl]].
  destruct (add_loop_spec (bins y) bs 0 Hd Hy ltac:(lia) ltac:(lia)) as [r [E1 [E2 [E3 E4]]]].
  rewrite E1. cbn [bind]. eexists; split; [reflexivity|]. cbn [bins negative].
  assert (r <> []).
  { assert (length (bins x) <> 0)%nat by (destruct (bins x); cbn; congruence).
    destruct r; [cbn in E4; lia|discriminate]. }
  splits; auto.
  - split; assumption.
  - lia.
  - intros L Tx. apply trimmed_of_lower; auto. intros L1.
    pose proof (bins_val_nonneg _ Hx). pose proof (bins_val_nonneg _ Hy).
    destruct E4 as [E4|[E4 E5]].
    + rewrite E4, Hl in *. rewrite E2, Hv. rewrite Nat.max_l in * by assumption.
      pose proof (trimmed_lower _ Hx Tx ltac:(lia)). lia.
    + rewrite E4. replace (S (length bs) - 1)%nat with (length bs) by lia. exact E5.
  - intros L Ty. apply trimmed_of_lower; auto. intros L1.
    pose proof (bins_val_nonneg _ Hx). pose proof (bins_val_nonneg _ Hy).
    destruct E4 as [E4|[E4 E5]].
    + rewrite E4, Hl in *. rewrite E2, Hv. rewrite Nat.max_r in * by assumption.
      pose proof (trimmed_lower _ Hy Ty ltac:(lia)). lia.
    + rewrite E4. replace (S (length bs) - 1)%nat with (length bs) by lia. exact E5.
  - intros n L1 L2 U. destruct E4 as [E4|[E4 E5]]; [lia|].
    destruct (le_lt_dec n (length bs)); [|lia].
    pose proof (pw_le _ _ l). lia.
  - lia.
  - lia.
Qed.

Lemma add__trimmed x y r : wf x -> wf y -> add_ x y = Ok r -> trimmed (bins x) -> trimmed (bins y) -> trimmed (bins r).
Proof.
  intros Hx Hy E Tx Ty. destruct (add__spec x y Hx Hy) as [r' [E' [_ [_ [_ [T1 [T2 _]]]]]]].
  rewrite E in E'. inversion E'; subst. destruct (le_lt_dec (size y) (size x)); auto. apply T2; [lia|assumption].
Qed.

(** subtract *)
Lemma sub_borrow_spec bs : forall c, Forall digit_ok bs -> 0 <= c <= 1 -> c <= bins_val bs ->
  exists bs', sub_borrow bs c = Ok bs' /\ bins_val bs' = bins_val bs - c /\ Forall digit_ok bs' /\
    length bs' = length bs.
Proof.
  induction bs as [|b bs IH]; intros c Hd Hc Hv; cbn [sub_borrow].
  - cbn in Hv. exists []. splits; auto. cbn. lia.
  - destruct (Z.eqb_spec c 0).
    + subst. eexists; split; [reflexivity|]. splits; auto. lia.
    + inversion Hd as [|? ? Hb Hd']; subst. unfold digit_ok in Hb. cbn [bins_val] in Hv.
      rewrite i32_ok by (unfold INT32_MIN, INT32_MAX; lia). cbn [bind]. unfold BIN_LIMIT.
      pose proof (bins_val_nonneg _ Hd').
      destruct (Z.ltb_spec (b - c) 0).
      * rewrite i32_ok by (unfold INT32_MIN, INT32_MAX; lia). cbn [bind].
        destruct (IH 1 Hd' ltac:(lia) ltac:(lia)) as [bs' [E1 [E2 [E3 E4]]]].
        rewrite E1. cbn [bind]. eexists; split; [reflexivity|]. cbn [bins_val length]. splits; try lia.
        constructor; [unfold digit_ok; lia|assumption].
      * destruct (IH 0 Hd' ltac:(lia) ltac:(lia)) as [bs' [E1 [E2 [E3 E4]]]].
        rewrite E1. cbn [bind]. eexists; split; [reflexivity|]. cbn [bins_val length]. splits; try lia.
        constructor; [unfold digit_ok; lia|assumption].
Qed.

Lemma sub_loop_spec xs : forall bs c, Forall digit_ok bs -> Forall digit_ok xs -> (length xs <= length bs)%nat ->
  0 <= c <= 1 -> bins_val xs + c <= bins_val bs ->
  exists bs', sub_loop bs xs c = Ok bs' /\ bins_val bs' = bins_val bs - bins_val xs - c /\ Forall digit_ok bs' /\
    length bs' = length bs.
Proof.
  induction xs as [|x xs IH]; intros bs c Hb Hx Hl Hc Hv; cbn [sub_loop].
  - cbn [bins_val] in Hv. destruct (sub_borrow_spec bs c Hb Hc ltac:(lia)) as [bs' [E1 [E2 [E3 E4]]]].
    exists bs'. splits; auto. cbn [bins_val]. lia.
  - destruct bs as [|b bs]; cbn in Hl; [lia|].
    inversion Hb as [|? ? Hb0 Hb']; inversion Hx as [|? ? Hx0 Hx']; subst. unfold digit_ok in Hb0, Hx0.
    cbn [bins_val] in Hv.
    rewrite i32_ok by (unfold INT32_MIN, INT32_MAX; lia). cbn [bind].
    rewrite i32_ok by (unfold INT32_MIN, INT32_MAX; lia). cbn [bind]. unfold BIN_LIMIT.
    destruct (Z.ltb_spec (b - c - x) 0).
    + rewrite i32_ok by (unfold INT32_MIN, INT32_MAX; lia). cbn [bind].
      destruct (IH bs 1 Hb' Hx' ltac:(lia) ltac:(lia) ltac:(lia)) as [bs' [E1 [E2 [E3 E4]]]].
      rewrite E1. cbn [bind]. eexists; split; [reflexivity|]. cbn [bins_val length]. splits; try lia.
      constructor; [unfold digit_ok; lia|assumption].
    + destruct (IH bs 0 Hb' Hx' ltac:(lia) ltac:(lia) ltac:(lia)) as [bs' [E1 [E2 [E3 E4]]]].
      rewrite E1. cbn [bind]. eexists; split; [reflexivity|]. cbn [bins_val length]. splits; try lia.
      constructor; [unfold digit_ok; lia|assumption].
Qed.

Lemma assert_top_spec x : assert_top x = if trimmedb (bins x) then Ok tt else Abort.
Proof.
  unfold assert_top, trimmedb, size, assert_. destruct (Nat.ltb_spec 1 (length (bins x))).
  - replace (length (bins x) <=? 1)%nat with false by lia. reflexivity.
  - replace (length (bins x) <=? 1)%nat with true by lia. reflexivity.
Qed.

(** subtract aborts exactly when an operand has a redundant bin or |x| < |y| *)
Lemma subtract_abort x y : wf x -> wf y ->
  trimmedb (bins x) = false \/ trimmedb (bins y) = false \/ aval x < aval y -> subtract x y = Abort.
Proof.
  intros Hx Hy H. unfold subtract. rewrite !assert_top_spec.
  destruct (trimmedb (bins x)); [|reflexivity].
  destruct (trimmedb (bins y)); [|reflexivity].
  destruct H as [H|[H|H]]; try discriminate. cbn [bind].
  destruct (abs_Int_ok x Hx) as [a1 [E1 [W1 V1]]]. destruct (abs_Int_ok y Hy) as [a2 [E2 [W2 V2]]].
  rewrite E1, E2. cbn [bind]. rewrite op_ge_spec by assumption. cbn [bind].
  rewrite V1, V2, !abs_val by assumption. replace (aval x >=? aval y) with false by lia. reflexivity.
Qed.

Lemma subtract_ok x y : wf x -> wf y -> trimmed (bins x) -> trimmed (bins y) -> aval y <= aval x ->
  exists r, subtract x y = Ok r /\ wf r /\ trimmed (bins r) /\ aval r = aval x - aval y /\ negative r = negative x.
Proof.
  intros Hx Hy Tx Ty H. unfold subtract. rewrite !assert_top_spec.
  rewrite (proj2 (trimmedb_spec _ (proj1 Hx)) Tx), (proj2 (trimmedb_spec _ (proj1 Hy)) Ty). cbn [bind].
  destruct (abs_Int_ok x Hx) as [a1 [E1 [W1 V1]]]. destruct (abs_Int_ok y Hy) as [a2 [E2 [W2 V2]]].
  rewrite E1, E2. cbn [bind]. rewrite op_ge_spec by assumption. cbn [bind].
  rewrite V1, V2, !abs_val by assumption. replace (aval x >=? aval y) with true by lia. cbn [assert_ bind].
  destruct Hx as [Nx Hx], Hy as [Ny Hy]. unfold aval in *.
  destruct (sub_loop_spec (bins y) (bins x) 0 Hx Hy) as [bs [E3 [E4 [E5 E6]]]]; try lia.
  { apply trimmed_length_le; auto. }
  rewrite E3. cbn [bind]. eexists; split; [reflexivity|]. cbn [bins negative].
  assert (Nb : bs <> []) by (destruct bs; [destruct (bins x); cbn in *; congruence|discriminate]).
  destruct (clean_list_spec bs E5 Nb) as [n [C1 [C2 [C3 C4]]]].
  splits; auto.
  - split; [apply C2|assumption].
  - lia.
Qed.

(** operator+ / operator- *)
Lemma clean_trimmedb x : wf x -> trimmedb (bins (clean_bins x)) = true.
Proof.
  intros H. destruct (clean_bins_wf x H) as [W [T _]]. apply trimmedb_spec; [apply W|assumption].
Qed.

Definition nonneg x := negative x = false.

(* the subtraction of non-negative numbers *)
Lemma addsub_sub_nonneg f x y : wf x -> wf y -> nonneg x -> nonneg y ->
  (if trimmedb (bins (if aval x >? aval y then y else x)) then
     exists r, addsub (S f) true x y = Ok r /\ canonical r /\ val r = val x - val y
   else addsub (S f) true x y = Abort).
Proof.
  unfold nonneg. intros Hx Hy Nx Ny. cbn [addsub]. rewrite Nx, Ny. cbn [andb negb].
  rewrite op_gt_spec by assumption. cbn [bind]. rewrite !val_aval, Nx, Ny.
  destruct (clean_bins_wf x Hx) as [Wx [Tx [_ Vx]]]. destruct (clean_bins_wf y Hy) as [Wy [Ty [_ Vy]]].
  destruct (Z.gtb_spec (aval x) (aval y)).
  - destruct (trimmedb (bins y)) eqn:T.
    + apply trimmedb_spec in T; [|apply Hy].
      destruct (subtract_ok _ _ Wx Hy Tx T ltac:(lia)) as [r [E [W [Tr [V N]]]]].
      exists r. splits; auto.
      * destruct r as [l n]. cbn in N. rewrite Nx in N. subst n. apply mk_canonical; auto; [apply W|discriminate].
      * rewrite val_aval, N. cbn. rewrite Nx. lia.
    + apply subtract_abort; auto.
  - destruct (trimmedb (bins x)) eqn:T.
    + apply trimmedb_spec in T; [|apply Hx].
      destruct (subtract_ok _ _ Wy Hx Ty T ltac:(lia)) as [r [E [W [Tr [V N]]]]].
      rewrite E. cbn [bind]. destruct (op_neg_ok r W) as [r' [E' [V' [B' [W' [Z' [N' C']]]]]]].
      exists r'. splits; auto. rewrite V', val_aval, N. cbn. rewrite Ny. lia.
    + rewrite subtract_abort; auto.
Qed.

Lemma addsub_add_nonneg f x y : wf x -> wf y -> nonneg x -> nonneg y ->
  exists r, addsub (S f) false x y = Ok r /\ wf r /\ nonneg r /\ val r = val x + val y /\
   (trimmed (bins x) -> trimmed (bins y) -> canonical r).
Proof.
  unfold nonneg. intros Hx Hy Nx Ny. cbn [addsub]. rewrite Nx, Ny. cbn [andb negb].
  assert (G : forall a b, wf a -> wf b -> negative a = false -> exists r, add_ a b = Ok r /\ wf r /\ negative r = false
     /\ aval r = aval a + aval b /\ (trimmed (bins a) -> trimmed (bins b) -> canonical r)).
  { intros a b Ha Hb Na. destruct (add__spec a b Ha Hb) as [r [E [W [V [N _]]]]]. exists r. splits; auto; try congruence.
    intros Ta Tb. pose proof (add__trimmed a b r Ha Hb E Ta Tb). destruct r as [l n]. cbn in N. rewrite Na in N. subst n. apply mk_canonical; auto; [apply W|discriminate]. }
  destruct (size y <? size x)%nat.
  - destruct (G x y Hx Hy Nx) as [r [E [W [N [V T]]]]]. exists r. splits; auto. rewrite !val_aval, N, Nx, Ny. lia.
  - destruct (G y x Hy Hx Ny) as [r [E [W [N [V T]]]]]. exists r. splits; auto. rewrite !val_aval, N, Nx, Ny. lia.
Qed.

Lemma op_neg_nonneg x : wf x -> negative x = true -> exists r, op_neg x = Ok r /\ wf r /\ nonneg r /\ val r = - val x /\ bins r = bins x.
Proof.
  intros H N. destruct (op_neg_ok x H) as [r [E [V [Bb [W [_ [N' _]]]]]]]. exists r. splits; auto. apply N', N.
Qed.

Lemma aval_bins x y : bins x = bins y -> aval x = aval y.
Proof. unfold aval. congruence. Qed.

(* operator-: exact outcome on any well-formed operands *)
Lemma op_sub_gen x y : wf x -> wf y ->
  if Bool.eqb (negative x) (negative y) && negb (trimmedb (bins (if aval x >? aval y then y else x)))
  then op_sub x y = Abort
  else exists r, op_sub x y = Ok r /\ wf r /\ val r = val x - val y /\ (val r = 0 -> negative r = false)
      /\ (trimmed (bins x) -> trimmed (bins y) -> canonical r)
      /\ (negative x = negative y -> canonical r).
Proof.
  intros Hx Hy. unfold op_sub. remember 2%nat as f eqn:Ef.
  destruct (negative x) eqn:Nx, (negative y) eqn:Ny; cbn [Bool.eqb andb].
  - destruct (op_neg_nonneg x Hx Nx) as [nx [E1 [W1 [N1 [V1 B1]]]]].
    destruct (op_neg_nonneg y Hy Ny) as [ny [E2 [W2 [N2 [V2 B2]]]]].
    cbn [addsub]. rewrite Nx, Ny. cbn [andb negb]. rewrite E1, E2. cbn [bind]. subst f.
    pose proof (addsub_sub_nonneg 1 nx ny W1 W2 N1 N2) as G.
    rewrite (aval_bins nx x B1), (aval_bins ny y B2) in G.
    replace (bins (if aval x >? aval y then ny else nx)) with (bins (if aval x >? aval y then y else x)) in G
      by (destruct (aval x >? aval y); congruence).
    destruct (trimmedb _); cbn [negb].
    + destruct G as [r [E [C V]]].  rewrite E. cbn [bind].
      destruct (op_neg_ok r ltac:(auto)) as [r' [E' [V' [B' [W' [Z' [_ C']]]]]]].
      exists r'. splits; auto. lia.
    +  rewrite G. reflexivity.
  - destruct (op_neg_nonneg x Hx Nx) as [nx [E1 [W1 [N1 [V1 B1]]]]].
    cbn [addsub]. rewrite Nx, Ny. cbn [andb negb]. rewrite E1. cbn [bind]. subst f.
    destruct (addsub_add_nonneg 1 nx y W1 Hy N1 Ny) as [r [E [C [N [V T]]]]].
     rewrite E. cbn [bind].
    destruct (op_neg_ok r ltac:(auto)) as [r' [E' [V' [B' [W' [Z' [_ C']]]]]]].
    exists r'. splits; auto; [lia| |discriminate].
    intros. apply C'. apply canonical_trimmed, T; congruence.
  - destruct (op_neg_nonneg y Hy Ny) as [ny [E2 [W2 [N2 [V2 B2]]]]].
    cbn [addsub]. rewrite Nx, Ny. cbn [andb negb]. rewrite E2. cbn [bind]. subst f.
    destruct (addsub_add_nonneg 1 x ny Hx W2 Nx N2) as [r [E [C [N [V T]]]]].
     rewrite E. exists r. splits; auto; [lia| |discriminate].
    intros. apply T; congruence.
  - pose proof (addsub_sub_nonneg f x y Hx Hy Nx Ny) as G.
    destruct (trimmedb _); cbn [negb].
    + destruct G as [r [E [C V]]]. exists r. splits; auto. intros V0. pose proof (canonical_neg_eq r C). lia.
    + exact G.
Qed.

(* operator+ *)
Lemma op_add_gen x y : wf x -> wf y ->
  if negb (Bool.eqb (negative x) (negative y)) && negb (trimmedb (bins (if aval x >? aval y then y else x)))
  then op_add x y = Abort
  else exists r, op_add x y = Ok r /\ wf r /\ val r = val x + val y /\ (val r = 0 -> negative r = false)
      /\ (trimmed (bins x) -> trimmed (bins y) -> canonical r).
Proof.
  intros Hx Hy. unfold op_add. remember 2%nat as f eqn:Ef.
  destruct (negative x) eqn:Nx, (negative y) eqn:Ny; cbn [Bool.eqb andb negb].
  - destruct (op_neg_nonneg x Hx Nx) as [nx [E1 [W1 [N1 [V1 B1]]]]].
    destruct (op_neg_nonneg y Hy Ny) as [ny [E2 [W2 [N2 [V2 B2]]]]].
    cbn [addsub]. rewrite Nx, Ny. cbn [andb negb]. rewrite E1, E2. cbn [bind]. subst f.
    destruct (addsub_add_nonneg 1 nx ny W1 W2 N1 N2) as [r [E [C [N [V T]]]]].
     rewrite E. cbn [bind].
    destruct (op_neg_ok r ltac:(auto)) as [r' [E' [V' [B' [W' [Z' [_ C']]]]]]].
    exists r'. splits; auto; [lia|]. intros. apply C', canonical_trimmed, T; congruence.
  - destruct (op_neg_nonneg x Hx Nx) as [nx [E1 [W1 [N1 [V1 B1]]]]].
    cbn [addsub]. rewrite Nx, Ny. cbn [andb negb]. rewrite E1. cbn [bind]. subst f.
    pose proof (addsub_sub_nonneg 1 nx y W1 Hy N1 Ny) as G.
    rewrite (aval_bins nx x B1) in G.
    replace (bins (if aval x >? aval y then y else nx)) with (bins (if aval x >? aval y then y else x)) in G
      by (destruct (aval x >? aval y); congruence).
    
    destruct (trimmedb _); cbn [negb].
    + destruct G as [r [E [C V]]]. rewrite E. cbn [bind].
      destruct (op_neg_ok r ltac:(auto)) as [r' [E' [V' [B' [W' [Z' [_ C']]]]]]].
      exists r'. splits; auto. lia.
    + rewrite G. reflexivity.
  - destruct (op_neg_nonneg y Hy Ny) as [ny [E2 [W2 [N2 [V2 B2]]]]].
    cbn [addsub]. rewrite Nx, Ny. cbn [andb negb]. rewrite E2. cbn [bind]. subst f.
    pose proof (addsub_sub_nonneg 1 x ny Hx W2 Nx N2) as G.
    rewrite (aval_bins ny y B2) in G.
    replace (bins (if aval x >? aval y then ny else x)) with (bins (if aval x >? aval y then y else x)) in G
      by (destruct (aval x >? aval y); congruence).
    
    destruct (trimmedb _); cbn [negb].
    + destruct G as [r [E [C V]]]. exists r. splits; auto; [lia|]. intros V0. pose proof (canonical_neg_eq r C). lia.
    + exact G.
  - destruct (addsub_add_nonneg f x y Hx Hy Nx Ny) as [r [E [C [N [V T]]]]]. exists r. splits; auto.
Qed.

Lemma op_add_ok x y : wf x -> wf y -> trimmed (bins x) -> trimmed (bins y) ->
  exists r, op_add x y = Ok r /\ canonical r /\ val r = val x + val y.
Proof.
  intros Hx Hy Tx Ty. pose proof (op_add_gen x y Hx Hy) as G.
  replace (trimmedb _) with true in G.
  - rewrite andb_false_r in G. destruct G as [r [E [W [V [Z T]]]]]. exists r. splits; auto.
  - symmetry. apply trimmedb_spec; destruct (aval x >? aval y); auto; apply Hx || apply Hy.
Qed.

Lemma op_sub_ok x y : wf x -> wf y -> trimmed (bins x) -> trimmed (bins y) ->
  exists r, op_sub x y = Ok r /\ canonical r /\ val r = val x - val y.
Proof.
  intros Hx Hy Tx Ty. pose proof (op_sub_gen x y Hx Hy) as G.
  replace (trimmedb _) with true in G.
  - rewrite andb_false_r in G. destruct G as [r [E [W [V [Z [T _]]]]]]. exists r. splits; auto.
  - symmetry. apply trimmedb_spec; destruct (aval x >? aval y); auto; apply Hx || apply Hy.
Qed.

(** compound assignment *)
Lemma addsub_assign_alias f s x : addsub_assign f s x None = addsub_assign f s x (Some x).
Proof.
  destruct f; [reflexivity|]. cbn [addsub_assign rd].
  destruct (negative x); reflexivity.
Qed.

Lemma asg_sub_nonneg f x y : wf x -> wf y -> trimmed (bins x) -> trimmed (bins y) -> nonneg x -> nonneg y ->
  exists r, addsub_assign (S f) true x (Some y) = Ok r /\ canonical r /\ val r = val x - val y.
Proof.
  unfold nonneg. intros Hx Hy Tx Ty Nx Ny. cbn [addsub_assign rd]. rewrite Nx, Ny. cbn [andb negb].
  rewrite op_gt_spec by assumption. cbn [bind]. rewrite !val_aval, Nx, Ny.
  destruct (Z.gtb_spec (aval x) (aval y)).
  - destruct (subtract_ok x y Hx Hy Tx Ty ltac:(lia)) as [r [E [W [Tr [V N]]]]].
    exists r. splits; auto.
    + destruct r as [l n]. cbn in N. rewrite Nx in N. subst n. apply mk_canonical; auto; [apply W|discriminate].
    + rewrite val_aval, N, Nx. lia.
  - destruct (subtract_ok y x Hy Hx Ty Tx ltac:(lia)) as [r [E [W [Tr [V N]]]]].
    rewrite E. cbn [bind]. destruct (negate_ok r W) as [r' [E' [V' [B' [W' [Z' [N' C']]]]]]].
    exists r'. splits; auto. rewrite V', val_aval, N, Ny. lia.
Qed.

Lemma asg_add_nonneg f x y : wf x -> wf y -> nonneg x -> nonneg y ->
  exists r, addsub_assign (S f) false x (Some y) = Ok r /\ wf r /\ nonneg r /\ val r = val x + val y /\
    (trimmed (bins x) -> trimmed (bins y) -> canonical r).
Proof.
  unfold nonneg. intros Hx Hy Nx Ny. cbn [addsub_assign rd]. rewrite Nx, Ny. cbn [andb negb].
  destruct (add__spec x y Hx Hy) as [r [E [W [V [N _]]]]]. exists r.
  splits; auto; try congruence.
  - rewrite !val_aval, N, Nx, Ny. lia.
  - intros Tx Ty. pose proof (add__trimmed x y r Hx Hy E Tx Ty). destruct r as [l n]. cbn in N. rewrite Nx in N. subst n. apply mk_canonical; auto; [apply W|discriminate].
Qed.

Lemma negate_nonneg x : wf x -> negative x = true -> exists r, negate x = Ok r /\ wf r /\ nonneg r /\ val r = - val x /\ bins r = bins x.
Proof. apply op_neg_nonneg. Qed.

Lemma addsub_assign_ok s x o : wf x -> trimmed (bins x) -> (forall y, o = Some y -> wf y /\ trimmed (bins y)) ->
  exists r, addsub_assign 3 s x o = Ok r /\ canonical r /\
     val r = if s : bool then val x - val (rd x o) else val x + val (rd x o).
Proof.
  intros Hx Tx Ho.
  assert (exists y, addsub_assign 3 s x o = addsub_assign 3 s x (Some y) /\ wf y /\ trimmed (bins y) /\ rd x o = y) as [y [-> [Hy [Ty ->]]]].
  { destruct o as [y|].
    - exists y. destruct (Ho y eq_refl). auto.
    - exists x. rewrite addsub_assign_alias. auto. }
  clear Ho o. remember 2%nat as f eqn:Ef.
  destruct (negative x) eqn:Nx, (negative y) eqn:Ny.
  - destruct (op_neg_nonneg y Hy Ny) as [ny [E2 [W2 [N2 [V2 B2]]]]].
    destruct (negate_nonneg x Hx Nx) as [nx [E1 [W1 [N1 [V1 B1]]]]].
    cbn [addsub_assign rd]. rewrite Nx, Ny. cbn [andb negb]. rewrite E2, E1. cbn [bind]. subst f.
    destruct s.
    + destruct (asg_sub_nonneg 1 nx ny W1 W2 ltac:(congruence) ltac:(congruence) N1 N2) as [r [E [C V]]].
      rewrite E. cbn [bind]. destruct (negate_ok r ltac:(auto)) as [r' [E' [V' [B' [W' [Z' [_ C']]]]]]].
      exists r'. splits; auto. lia.
    + destruct (asg_add_nonneg 1 nx ny W1 W2 N1 N2) as [r [E [W [N [V C]]]]].
      rewrite E. cbn [bind]. destruct (negate_ok r ltac:(auto)) as [r' [E' [V' [B' [W' [Z' [_ C']]]]]]].
      exists r'. splits; auto; [|lia]. apply C', canonical_trimmed, C; congruence.
  - destruct (negate_nonneg x Hx Nx) as [nx [E1 [W1 [N1 [V1 B1]]]]].
    cbn [addsub_assign rd]. rewrite Nx, Ny. cbn [andb negb]. rewrite E1. cbn [bind]. subst f.
    destruct s.
    + destruct (asg_add_nonneg 1 nx y W1 Hy N1 Ny) as [r [E [W [N [V C]]]]].
      rewrite E. cbn [bind]. destruct (negate_ok r ltac:(auto)) as [r' [E' [V' [B' [W' [Z' [_ C']]]]]]].
      exists r'. splits; auto; [|lia]. apply C', canonical_trimmed, C; congruence.
    + destruct (asg_sub_nonneg 1 nx y W1 Hy ltac:(congruence) ltac:(congruence) N1 Ny) as [r [E [C V]]].
      rewrite E. cbn [bind]. destruct (negate_ok r ltac:(auto)) as [r' [E' [V' [B' [W' [Z' [_ C']]]]]]].
      exists r'. splits; auto. lia.
  - destruct (op_neg_nonneg y Hy Ny) as [ny [E2 [W2 [N2 [V2 B2]]]]].
    cbn [addsub_assign rd]. rewrite Nx, Ny. cbn [andb negb]. rewrite E2. cbn [bind]. subst f.
    destruct s.
    + destruct (asg_add_nonneg 1 x ny Hx W2 Nx N2) as [r [E [W [N [V C]]]]].
      exists r. splits; auto; [|lia]. apply C; congruence.
    + destruct (asg_sub_nonneg 1 x ny Hx W2 ltac:(congruence) ltac:(congruence) Nx N2) as [r [E [C V]]].
      exists r. splits; auto; lia.
  - destruct s.
    + apply asg_sub_nonneg; assumption.
    + destruct (asg_add_nonneg f x y Hx Hy Nx Ny) as [r [E [W [N [V C]]]]]. exists r. splits; auto.
Qed.

Lemma add_assign_nonneg x y : wf x -> wf y -> nonneg x -> nonneg y ->
  exists r, add_assign x (Some y) = Ok r /\ wf r /\ nonneg r /\ aval r = aval x + aval y /\
    ((size y <= size x)%nat -> trimmed (bins x) -> trimmed (bins r)) /\
    ((size x <= size y)%nat -> trimmed (bins y) -> trimmed (bins r)) /\
    (forall n, (size x <= n)%nat -> (size y <= n)%nat -> aval r < pw n -> (size r <= n)%nat) /\
    (size x <= size r)%nat /\ (size y <= size r)%nat.
Proof.
  unfold nonneg. intros Hx Hy Nx Ny. unfold add_assign. cbn [addsub_assign rd]. rewrite Nx, Ny. cbn [andb negb].
  destruct (add__spec x y Hx Hy) as [r [E [W [V [N T]]]]]. exists r.
  splits; auto; try congruence; apply T.
Qed.

(** Exact outcome of += and -= on well-formed operands that may have redundant
    leading zero bins. *)
Lemma asg_sub_nonneg_gen f x y : wf x -> wf y -> nonneg x -> nonneg y ->
  if trimmedb (bins x) && trimmedb (bins y)
  then exists r, addsub_assign (S f) true x (Some y) = Ok r /\ canonical r /\ val r = val x - val y
  else addsub_assign (S f) true x (Some y) = Abort.
Proof.
  unfold nonneg. intros Hx Hy Nx Ny.
  destruct (trimmedb (bins x)) eqn:Tx, (trimmedb (bins y)) eqn:Ty; cbn [andb].
  - apply asg_sub_nonneg; auto; apply trimmedb_spec; auto; apply Hx || apply Hy.
  - cbn [addsub_assign rd]. rewrite Nx, Ny. cbn [andb negb]. rewrite op_gt_spec by assumption. cbn [bind].
    destruct (_ >? _); rewrite subtract_abort; auto.
  - cbn [addsub_assign rd]. rewrite Nx, Ny. cbn [andb negb]. rewrite op_gt_spec by assumption. cbn [bind].
    destruct (_ >? _); rewrite subtract_abort; auto.
  - cbn [addsub_assign rd]. rewrite Nx, Ny. cbn [andb negb]. rewrite op_gt_spec by assumption. cbn [bind].
    destruct (_ >? _); rewrite subtract_abort; auto.
Qed.

Lemma addsub_assign_gen s x o : wf x -> (forall y, o = Some y -> wf y) ->
  let y := rd x o in
  if xorb s (xorb (negative x) (negative y)) && negb (trimmedb (bins x) && trimmedb (bins y))
  then addsub_assign 3 s x o = Abort
  else exists r, addsub_assign 3 s x o = Ok r /\ wf r /\ (val r = 0 -> negative r = false) /\
     val r = if s : bool then val x - val y else val x + val y.
Proof.
  intros Hx Ho y.
  assert (addsub_assign 3 s x o = addsub_assign 3 s x (Some y) /\ wf y) as [-> Hy].
  { subst y. destruct o as [y|].
    - split; auto.
    - rewrite addsub_assign_alias. auto. }
  clearbody y. clear Ho o. remember 2%nat as f eqn:Ef.
  destruct (negative x) eqn:Nx, (negative y) eqn:Ny.
  - destruct (op_neg_nonneg y Hy Ny) as [ny [E2 [W2 [N2 [V2 B2]]]]].
    destruct (negate_nonneg x Hx Nx) as [nx [E1 [W1 [N1 [V1 B1]]]]].
    cbn [addsub_assign rd]. rewrite Nx, Ny. cbn [andb negb]. rewrite E2, E1. cbn [bind]. subst f.
    destruct s; cbn [xorb andb].
    + pose proof (asg_sub_nonneg_gen 1 nx ny W1 W2 N1 N2) as G. rewrite B1, B2 in G.
      destruct (_ && _); cbn [negb].
      * destruct G as [r [E [C V]]]. rewrite E. cbn [bind].
        destruct (negate_ok r ltac:(auto)) as [r' [E' [V' [B' [W' [Z' [_ C']]]]]]].
        exists r'. splits; auto. lia.
      * rewrite G. reflexivity.
    + destruct (asg_add_nonneg 1 nx ny W1 W2 N1 N2) as [r [E [W [N [V C]]]]].
      rewrite E. cbn [bind]. destruct (negate_ok r ltac:(auto)) as [r' [E' [V' [B' [W' [Z' [_ C']]]]]]].
      exists r'. splits; auto. lia.
  - destruct (negate_nonneg x Hx Nx) as [nx [E1 [W1 [N1 [V1 B1]]]]].
    cbn [addsub_assign rd]. rewrite Nx, Ny. cbn [andb negb]. rewrite E1. cbn [bind]. subst f.
    destruct s; cbn [xorb andb].
    + destruct (asg_add_nonneg 1 nx y W1 Hy N1 Ny) as [r [E [W [N [V C]]]]].
      rewrite E. cbn [bind]. destruct (negate_ok r ltac:(auto)) as [r' [E' [V' [B' [W' [Z' [_ C']]]]]]].
      exists r'. splits; auto. lia.
    + pose proof (asg_sub_nonneg_gen 1 nx y W1 Hy N1 Ny) as G. rewrite B1 in G.
      destruct (_ && _); cbn [negb].
      * destruct G as [r [E [C V]]]. rewrite E. cbn [bind].
        destruct (negate_ok r ltac:(auto)) as [r' [E' [V' [B' [W' [Z' [_ C']]]]]]].
        exists r'. splits; auto. lia.
      * rewrite G. reflexivity.
  - destruct (op_neg_nonneg y Hy Ny) as [ny [E2 [W2 [N2 [V2 B2]]]]].
    cbn [addsub_assign rd]. rewrite Nx, Ny. cbn [andb negb]. rewrite E2. cbn [bind]. subst f.
    destruct s; cbn [xorb andb].
    + destruct (asg_add_nonneg 1 x ny Hx W2 Nx N2) as [r [E [W [N [V C]]]]].
      exists r. splits; auto; lia.
    + pose proof (asg_sub_nonneg_gen 1 x ny Hx W2 Nx N2) as G. rewrite B2 in G.
      destruct (_ && _); cbn [negb].
      * destruct G as [r [E [C V]]]. exists r. splits; auto; [|lia].
        intros V0. pose proof (canonical_neg_eq r C). lia.
      * exact G.
  - destruct s; cbn [xorb andb].
    + pose proof (asg_sub_nonneg_gen f x y Hx Hy Nx Ny) as G. destruct (_ && _); cbn [negb].
      * destruct G as [r [E [C V]]]. exists r. splits; auto.
        intros V0. pose proof (canonical_neg_eq r C). lia.
      * exact G.
    + destruct (asg_add_nonneg f x y Hx Hy Nx Ny) as [r [E [W [N [V C]]]]]. exists r. splits; auto.
Qed.
