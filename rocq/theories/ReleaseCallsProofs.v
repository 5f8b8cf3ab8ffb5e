(** Programs of Int calls compiled without assertions, exceptions caught. *)
From Coq Require Import ZifyBool.
From Verif Require Import Base IntModel IntSpec IntBasics IntAddSub IntMul IntDiv IntMod IntScale IntPowDefined
  IntPowExact IOModel IOSpec IOProofs PropsInt IntHistory IntCalls ReleaseModel ReleaseSpec ReleaseProofs ReleaseProofs2 PropsRelease ReleaseCallsModel ReleaseCallsSpec.
Local Open Scope list_scope.
Local Open Scope Z_scope.

(** *** What `+=` and `-=` leave *)
Lemma sub_left_loop xs : forall bs c, (_ <- snd (sub_left bs xs c) ;; Ok (fst (sub_left bs xs c))) = sub_loop bs xs c.
Proof.
  induction xs as [|x xs IH]; intros bs c; cbn [sub_left sub_loop].
  - destruct (sub_borrow bs c); reflexivity.
  - destruct bs as [|b bs]; [reflexivity|]. destruct (i32 (b - c)) as [t|e| | |]; cbn [bind]; try reflexivity.
    destruct (i32 (t - x)) as [diff|e| | |]; cbn [bind]; try reflexivity. destruct (diff <? 0).
    + destruct (i32 (diff + BIN_LIMIT)) as [d|e| | |]; cbn [bind]; try reflexivity.
      rewrite <- (IH bs 1). destruct (sub_left bs xs 1) as [l [?|?| | |]]; reflexivity.
    + rewrite <- (IH bs 0). destruct (sub_left bs xs 0) as [l [?|?| | |]]; reflexivity.
Qed.
Lemma subtract_left_nd x y : finish (subtract_left x y) = subtract_nd x y.
Proof. unfold subtract_left, subtract_nd. rewrite <- sub_left_loop. destruct (sub_left (bins x) (bins y) 0) as [l [?|?| | |]]; reflexivity. Qed.
Lemma finish_then p f : finish (then_ p f) = (l <- finish p ;; finish (f l)).
Proof. destruct p as [l [[]|?| | |]]; reflexivity. Qed.
Lemma finish_ended {A} x (m : res A) : (forall a, m <> Ok a) -> finish (x, ended m) = (_ <- m ;; Ok x).
Proof. destruct m; intros H; try reflexivity. Qed.
(** What is modelled here agrees with ReleaseModel.v on everything but the object left behind. *)
Lemma addsub_left_nd f : forall s x o, finish (addsub_left f s x o) = addsub_assign_nd f s x o.
Proof.
  induction f as [|f IH]; intros s x o; [reflexivity|]. cbn [addsub_left addsub_assign_nd].
  destruct s.
  - destruct (negative x && negative (rd x o)); [|destruct (negative x && negb (negative (rd x o))); [|destruct (negb (negative x) && negative (rd x o))]].
    + destruct (op_neg (rd x o)) as [t|e| | |]; cbn [bind]; try reflexivity.
      rewrite !finish_then. unfold negate_left. rewrite finish_in_place. destruct (negate x) as [t1|e| | |]; cbn [bind]; try reflexivity.
      rewrite IH. destruct (addsub_assign_nd f true t1 (Some t)) as [t2|e| | |]; cbn [bind]; try reflexivity. apply finish_in_place.
    + rewrite !finish_then. unfold negate_left. rewrite finish_in_place. destruct (negate x) as [t1|e| | |]; cbn [bind]; try reflexivity.
      rewrite IH. destruct (addsub_assign_nd f false t1 o) as [t2|e| | |]; cbn [bind]; try reflexivity. apply finish_in_place.
    + destruct (op_neg (rd x o)) as [t|e| | |]; cbn [bind]; try reflexivity. apply IH.
    + destruct (op_gt x (rd x o)) as [[]|e| | |]; cbn [bind]; try reflexivity; [apply subtract_left_nd|apply finish_in_place].
  - destruct (negative x && negative (rd x o)); [|destruct (negative x && negb (negative (rd x o))); [|destruct (negb (negative x) && negative (rd x o))]].
    + destruct (op_neg (rd x o)) as [t|e| | |]; cbn [bind]; try reflexivity.
      rewrite !finish_then. unfold negate_left. rewrite finish_in_place. destruct (negate x) as [t1|e| | |]; cbn [bind]; try reflexivity.
      rewrite IH. destruct (addsub_assign_nd f false t1 (Some t)) as [t2|e| | |]; cbn [bind]; try reflexivity. apply finish_in_place.
    + rewrite !finish_then. unfold negate_left. rewrite finish_in_place. destruct (negate x) as [t1|e| | |]; cbn [bind]; try reflexivity.
      rewrite IH. destruct (addsub_assign_nd f true t1 o) as [t2|e| | |]; cbn [bind]; try reflexivity. apply finish_in_place.
    + destruct (op_neg (rd x o)) as [t|e| | |]; cbn [bind]; try reflexivity. apply IH.
    + apply finish_in_place.
Qed.

(** The loop past the end of *this has written the difference modulo the size of *this. *)
Lemma sub_left_short xs : forall bs c, Forall digit_ok bs -> Forall digit_ok xs -> (length bs < length xs)%nat -> 0 <= c <= 1 ->
  exists l, sub_left bs xs c = (l, Throw OutOfRange) /\ length l = length bs /\ Forall digit_ok l /\
    bins_val l = (bins_val bs - bins_val xs - c) mod pw (length bs).
Proof.
  induction xs as [|x xs IH]; intros bs c Hb Hx Hl Hc; cbn [length] in Hl; [lia|]. cbn [sub_left]. destruct bs as [|b bs].
  { exists []. splits; auto. cbn [length bins_val]. unfold pw. cbn. rewrite Z.mod_1_r. reflexivity. }
  inversion Hb as [|? ? Hb0 Hb']; inversion Hx as [|? ? Hx0 Hx']; subst. unfold digit_ok in Hb0, Hx0. cbn [length] in Hl.
  rewrite i32_ok by (unfold INT32_MIN, INT32_MAX; lia). cbn [bind]. rewrite i32_ok by (unfold INT32_MIN, INT32_MAX; lia). unfold BIN_LIMIT.
  assert (G : forall d c' l, b - c - x = d - B * c' -> 0 <= d < B -> length l = length bs -> Forall digit_ok l ->
    bins_val l = (bins_val bs - bins_val xs - c') mod pw (length bs) ->
    length (d :: l) = length (b :: bs) /\ Forall digit_ok (d :: l) /\
    bins_val (d :: l) = (bins_val (b :: bs) - bins_val (x :: xs) - c) mod pw (length (b :: bs))).
  { intros d c' l E Hd L F V. splits; [cbn; lia|constructor; auto|].
    cbn [bins_val length]. rewrite pw_S, V. pose proof (pw_pos (length bs)) as P.
    set (u := bins_val bs - bins_val xs - c') in *.
    replace (b + B * bins_val bs - (x + B * bins_val xs) - c) with (d + B * u) by (subst u; lia).
    pose proof (Z.div_mod u (pw (length bs)) ltac:(lia)). pose proof (Z.mod_pos_bound u (pw (length bs)) ltac:(lia)).
    apply (Z.mod_unique _ _ (u / pw (length bs))); [left; split; nia|]. nia. }
  destruct (Z.ltb_spec (b - c - x) 0) as [L|L].
  - rewrite i32_ok by (unfold INT32_MIN, INT32_MAX; lia).
    destruct (IH bs 1 Hb' Hx' ltac:(lia) ltac:(lia)) as (l & E & El & F & V). rewrite E. eexists. split; [reflexivity|].
    apply (G _ 1); auto; lia.
  - destruct (IH bs 0 Hb' Hx' ltac:(lia) ltac:(lia)) as (l & E & El & F & V). rewrite E. eexists. split; [reflexivity|].
    apply (G _ 0); auto; lia.
Qed.
Lemma subtract_left_short x y : wf x -> wf y -> (size x < size y)%nat -> aval y <= aval x ->
  exists l, subtract_left x y = (l, Throw OutOfRange) /\ wf l /\ negative l = negative x /\ aval l = aval x - aval y.
Proof.
  intros Hx Hy L V. destruct (sub_left_short (bins y) (bins x) 0 (proj2 Hx) (proj2 Hy) L ltac:(lia)) as (l & E & El & F & Vl).
  unfold subtract_left. rewrite E. eexists. split; [reflexivity|]. splits; auto.
  - split; cbn; auto. pose proof (size_pos x Hx). unfold size in *. destruct l; [cbn in *; lia|discriminate].
  - unfold aval at 1. cbn [bins]. rewrite Vl. unfold aval in *. pose proof (bins_val_nonneg (bins y) (proj2 Hy)).
    pose proof (bins_val_bound (bins x) (proj2 Hx)). rewrite Z.mod_small; lia.
Qed.
Lemma addsub_left_alias f s x : addsub_left (S f) s x None = addsub_left (S f) s x (Some x).
Proof. cbn [addsub_left rd]. destruct s, (negative x); cbn [andb negb]; reflexivity. Qed.
Lemma left_sub_nonneg f x y : wf x -> wf y -> nonneg x -> nonneg y ->
  (exists r, addsub_left (S f) true x (Some y) = (r, Ok tt) /\ wf r /\ val r = val x - val y) \/
  (exists l, addsub_left (S f) true x (Some y) = (l, Throw OutOfRange) /\ wf l /\ nonneg l /\
     aval l = if aval y <? aval x then aval x - aval y else aval x).
Proof.
  unfold nonneg. intros Hx Hy Nx Ny. cbn [addsub_left rd]. rewrite Nx, Ny. cbn [andb negb]. rewrite op_gt_spec by assumption.
  rewrite !val_aval, Nx, Ny. destruct (Z.gtb_spec (aval x) (aval y)) as [G|G].
  - replace (aval y <? aval x) with true by lia. destruct (le_lt_dec (size y) (size x)) as [L|L].
    + destruct (subtract_nd_ok x y Hx Hy L ltac:(lia)) as (r & E & W & _ & V & N). left. rewrite <- subtract_left_nd in E.
      destruct (subtract_left x y) as [l [[]|?| | |]]; try discriminate. injection E as ->. exists r. splits; auto. rewrite val_aval, N, Nx. lia.
    + destruct (subtract_left_short x y Hx Hy L ltac:(lia)) as (l & E & W & N & V). right. exists l. splits; auto. congruence.
  - replace (aval y <? aval x) with false by lia. destruct (le_lt_dec (size x) (size y)) as [L|L].
    + destruct (subtract_nd_ok y x Hy Hx L ltac:(lia)) as (r & E & W & _ & V & N). left. rewrite E. cbn [bind].
      destruct (negate_ok r W) as (r' & -> & V' & _ & W' & _). exists r'. splits; auto. rewrite V', val_aval, N, Ny. lia.
    + right. rewrite subtract_nd_short by auto. exists x. splits; auto.
Qed.
Lemma left_add_nonneg f x y : wf x -> wf y -> nonneg x -> nonneg y ->
  exists r, addsub_left (S f) false x (Some y) = (r, Ok tt) /\ wf r /\ val r = val x + val y.
Proof.
  unfold nonneg. intros Hx Hy Nx Ny. cbn [addsub_left rd]. rewrite Nx, Ny. cbn [andb negb].
  destruct (add__spec x y Hx Hy) as (r & -> & W & V & N & _). exists r. splits; auto. rewrite !val_aval, N, Nx, Ny. lia.
Qed.
Definition sum_sound (s : bool) (x y : Int) (p : Int * res unit) : Prop :=
  (exists r, p = (r, Ok tt) /\ wf r /\ val r = if s then val x - val y else val x + val y) \/
  (exists l, p = (l, Throw OutOfRange) /\ wf l /\ (if s then 0 <= val x * val y else val x * val y <= 0) /\ sum_left (val x) (val y) (val l)).
Lemma sum_left_aval x y l : wf x -> wf y -> nonneg l -> aval l = (if aval y <? aval x then aval x - aval y else aval x) -> sum_left (val x) (val y) (val l).
Proof. intros Hx Hy Nl V. unfold sum_left. rewrite !abs_val by auto. rewrite (val_nonneg_aval l Nl). exact V. Qed.
Lemma addsub_left_sound s x o : wf x -> (forall y, o = Some y -> wf y) -> sum_sound s x (rd x o) (addsub_left 3 s x o).
Proof.
  intros Hx Ho. assert (addsub_left 3 s x o = addsub_left 3 s x (Some (rd x o)) /\ wf (rd x o)) as [-> Hy].
  { destruct o as [y|]; cbn [rd]; auto. split; auto. apply addsub_left_alias. }
  set (y := rd x o) in *. clearbody y. clear o Ho.
  pose proof (val_aval x) as Vx. pose proof (val_aval y) as Vy. pose proof (aval_nonneg x Hx) as Px. pose proof (aval_nonneg y Hy) as Py.
  assert (Sg : if s then (negative x = negative y -> 0 <= val x * val y) else (negative x <> negative y -> val x * val y <= 0)).
  { destruct s; rewrite Vx, Vy; destruct (negative x), (negative y); intros; nia || congruence. }
  remember 2%nat as f eqn:Ef. cbn [addsub_left rd].
  destruct (negative x) eqn:Nx, (negative y) eqn:Ny; cbn [andb negb].
  - destruct (op_neg_nonneg y Hy Ny) as (ny & -> & W2 & N2 & V2 & B2).
    destruct (negate_nonneg x Hx Nx) as (nx & E1 & W1 & N1 & V1 & B1). assert (NL : negate_left x = (nx, Ok tt)) by (unfold negate_left; rewrite E1; reflexivity). rewrite !NL. cbn [then_]. subst f.
    destruct s.
    + destruct (left_sub_nonneg 1 nx ny W1 W2 N1 N2) as [(r & -> & W & V)|(l & -> & W & N & V)]; cbn [then_].
      * left. unfold negate_left. destruct (negate_ok r W) as (r' & -> & V' & _ & W' & _). exists r'. splits; auto. lia.
      * right. exists l. splits; auto. apply sum_left_aval; auto. unfold aval in *. rewrite B1, B2 in V. exact V.
    + destruct (left_add_nonneg 1 nx ny W1 W2 N1 N2) as (r & -> & W & V); cbn [then_].
      left. unfold negate_left. destruct (negate_ok r W) as (r' & -> & V' & _ & W' & _). exists r'. splits; auto. lia.
  - destruct (negate_nonneg x Hx Nx) as (nx & E1 & W1 & N1 & V1 & B1). assert (NL : negate_left x = (nx, Ok tt)) by (unfold negate_left; rewrite E1; reflexivity). rewrite !NL. cbn [then_]. subst f.
    destruct s.
    + destruct (left_add_nonneg 1 nx y W1 Hy N1 Ny) as (r & -> & W & V); cbn [then_].
      left. unfold negate_left. destruct (negate_ok r W) as (r' & -> & V' & _ & W' & _). exists r'. splits; auto. lia.
    + destruct (left_sub_nonneg 1 nx y W1 Hy N1 Ny) as [(r & -> & W & V)|(l & -> & W & N & V)]; cbn [then_].
      * left. unfold negate_left. destruct (negate_ok r W) as (r' & -> & V' & _ & W' & _). exists r'. splits; auto. lia.
      * right. exists l. splits; auto; try (apply Sg; discriminate). apply sum_left_aval; auto. unfold aval in *. rewrite B1 in V. exact V.
  - destruct (op_neg_nonneg y Hy Ny) as (ny & -> & W2 & N2 & V2 & B2). subst f. destruct s.
    + destruct (left_add_nonneg 1 x ny Hx W2 Nx N2) as (r & -> & W & V). left. exists r. splits; auto. lia.
    + destruct (left_sub_nonneg 1 x ny Hx W2 Nx N2) as [(r & -> & W & V)|(l & -> & W & N & V)].
      * left. exists r. splits; auto. lia.
      * right. exists l. splits; auto; try (apply Sg; discriminate). apply sum_left_aval; auto. unfold aval in *. rewrite B2 in V. exact V.
  - destruct s.
    + pose proof (left_sub_nonneg f x y Hx Hy Nx Ny) as G. cbn [addsub_left rd] in G. rewrite Nx, Ny in G. cbn [andb negb] in G.
      destruct G as [(r & -> & W & V)|(l & -> & W & N & V)].
      * left. exists r. splits; auto.
      * right. exists l. splits; auto. apply sum_left_aval; auto.
    + pose proof (left_add_nonneg f x y Hx Hy Nx Ny) as G. cbn [addsub_left rd] in G. rewrite Nx, Ny in G. cbn [andb negb] in G.
      destruct G as (r & -> & W & V). left. exists r. splits; auto.
Qed.

(** *** The operators *)
Definition sound_nd (o : aop) (x y : Int) (m : res Int) : Prop :=
  (exists r, m = Ok r /\ wf r /\ zresult o (val x) (val y) (val r)) \/
  ((o = Div \/ o = Mod) /\ val y = 0 /\ m = Throw DivideByZero) \/
  (o <> Mul /\ m = Throw OutOfRange).
Lemma fits_dec n a : fits n a \/ ~ fits n a.
Proof. unfold fits. destruct (le_lt_dec n 1); [left; left; auto|]. destruct (Z_le_gt_dec ((10 ^ 9) ^ (Z.of_nat n - 1)) a); [left; right; auto|right; lia]. Qed.
Lemma sub_sound_nd x y : wf x -> wf y -> sound_nd Sub x y (op_sub_nd x y).
Proof.
  intros Hx Hy. destruct (op_sub_nd_gen x y Hx Hy) as (H1 & H2 & H3). destruct (Bool.bool_dec (negative x) (negative y)) as [E|E].
  - destruct (fits_dec (size (subtrahend x y)) (Z.max (aval x) (aval y))) as [F|F].
    + destruct (H2 E F) as (r & Er & C & V). left. exists r. splits; auto.
    + right. right. split; [discriminate|auto].
  - rewrite (H1 E). destruct (binary_sound Sub x y Hx Hy) as [G|[([G|G] & _)|[_ G]]]; [left; exact G|discriminate|discriminate|exfalso].
    pose proof (op_sub_gen x y Hx Hy) as Q. replace (Bool.eqb (negative x) (negative y)) with false in Q by (destruct (negative x), (negative y); cbn; congruence).
    cbn [andb] in Q. destruct Q as (r & Q & _). cbn [binary] in G. congruence.
Qed.
Lemma add_sound_nd x y : wf x -> wf y -> sound_nd Add x y (op_add_nd x y).
Proof.
  intros Hx Hy. destruct (op_add_nd_gen x y Hx Hy) as (H1 & H2 & H3). destruct (Bool.bool_dec (negative x) (negative y)) as [E|E].
  - rewrite (H1 E). destruct (binary_sound Add x y Hx Hy) as [G|[([G|G] & _)|[_ G]]]; [left; exact G|discriminate|discriminate|exfalso].
    pose proof (op_add_gen x y Hx Hy) as Q. rewrite E in Q. rewrite Bool.eqb_reflx in Q.
    cbn [negb andb] in Q. destruct Q as (r & Q & _). cbn [binary] in G. congruence.
  - destruct (fits_dec (size (subtrahend x y)) (Z.max (aval x) (aval y))) as [F|F].
    + destruct (H2 E F) as (r & Er & C & V). left. exists r. splits; auto.
    + right. right. split; [discriminate|auto].
Qed.
Lemma mul_nd_ok x y : wf x -> wf y -> exists r, op_mul_nd x y = Ok r /\ wf r /\ val r = val x * val y.
Proof. intros Hx Hy. destruct (op_mul_gen x y Hx Hy) as (r & E & W & V & _). exists r. splits; auto. apply op_mul_keeps. exact E. Qed.
Lemma div_sound_nd x y : wf x -> wf y -> sound_nd Div x y (op_div_nd x y).
Proof.
  intros Hx Hy. rewrite op_div_released by auto. destruct (div_sound x y Hx Hy) as [(r & -> & W & V)|[(H & Z0 & ->)|[_ ->]]]; cbn [released].
  - left. exists r. auto.
  - right. left. auto.
  - right. right. split; [discriminate|auto].
Qed.
Lemma add_assign_sound_nd x y : wf x -> wf y -> sound_nd Add x y (add_assign_nd x (Some y)).
Proof.
  intros Hx Hy. unfold add_assign_nd. rewrite <- addsub_left_nd.
  destruct (addsub_left_sound false x (Some y) Hx ltac:(intros ? [= <-]; auto)) as [(r & -> & W & V)|(l & -> & _)].
  - left. exists r. splits; auto.
  - right. right. split; [discriminate|auto].
Qed.

Lemma mod_sound_nd x y : wf x -> wf y -> sound_nd Mod x y (op_mod_nd x y).
Proof.
  intros Hx Hy. unfold sound_nd, op_mod_nd, modulo_nd.
  destruct (abs_operand x Hx) as (a & Ea & Wa & Na & Va). destruct (abs_operand y Hy) as (b & Eb & Wb & Nb & Vb).
  rewrite Ea, Eb. cbn [bind].
  destruct (div_sound_nd a b Wa Wb) as [(q & Eq & Wq & Nz & Vq)|[(_ & Z0 & E)|[_ E]]].
  2:{ right. left. rewrite E. splits; auto. lia. }
  2:{ right. right. rewrite E. split; [discriminate|auto]. }
  rewrite Eq. cbn [bind].
  destruct (mul_nd_ok q b Wq Wb) as (qb & Em & Wm & Vm). rewrite Em. cbn [bind].
  destruct (sub_sound_nd a qb Wa Wm) as [(r & Er & Wr & Vr)|[([H|H] & _)|[_ E]]]; [|discriminate|discriminate|].
  2:{ right. right. rewrite E. split; [discriminate|auto]. }
  rewrite Er. cbn [bind]. cbn [zresult] in Vr.
  rewrite equals_int32_0 by auto. cbn [bind].
  assert (Nzy : val y <> 0) by lia.
  assert (R : val r = Z.abs (val x) mod Z.abs (val y)).
  { rewrite Vr, Vm, Vq, Va, Vb in *. rewrite Z.quot_div_nonneg by lia.
    pose proof (Z.div_mod (Z.abs (val x)) (Z.abs (val y))). lia. }
  pose proof (Z.mod_pos_bound (Z.abs (val x)) (Z.abs (val y)) ltac:(lia)) as Bd.
  pose proof (abs_val r Wr) as Ar.
  pose proof (val_aval x) as Sx. pose proof (val_aval y) as Sy.
  pose proof (aval_nonneg x Hx) as Px. pose proof (aval_nonneg y Hy) as Py.
  destruct (Z.eqb_spec (aval r) 0) as [R0|R0].
  { left. exists r. splits; auto. split; auto.
    assert (D : (Z.abs (val x)) mod (Z.abs (val y)) = 0) by lia.
    apply Z.mod_divide in D; [|lia]. symmetry. rewrite R in *.
    assert (H : val r = 0) by lia. rewrite <- R, H.
    apply Z.mod_divide; auto. apply (proj1 (Z.divide_abs_l _ _)). apply (proj1 (Z.divide_abs_r _ _)). exact D. }
  assert (R1 : val r <> 0) by lia.
  destruct (negative x) eqn:Nx, (negative y) eqn:Ny; cbn [andb negb].
  - destruct (negate_ok r Wr) as (v & -> & Vv & _ & Wv & _). left. exists v. splits; auto. split; auto.
    rewrite Vv, R. rewrite (Z.abs_neq (val x)), (Z.abs_neq (val y)) by lia.
    rewrite Z.mod_opp_opp by auto. lia.
  - destruct (sub_sound_nd y r Hy Wr) as [(v & Ev & Wv & Vv)|[([H|H] & _)|[_ E]]]; [|discriminate|discriminate|].
    2:{ right. right. split; [discriminate|auto]. }
    cbn [zresult] in Vv. left. exists v. splits; auto. split; auto.
    rewrite Vv, R. rewrite (Z.abs_neq (val x)), (Z.abs_eq (val y)) in * by lia.
    rewrite <- (Z.opp_involutive (val x)) at 2. rewrite (Z.mod_opp_l_nz (- val x)) by lia. reflexivity.
  - destruct (add_assign_sound_nd r y Wr Hy) as [(v & Ev & Wv & Vv)|[([H|H] & _)|[_ E]]]; [|discriminate|discriminate|].
    2:{ right. right. split; [discriminate|auto]. }
    cbn [zresult] in Vv. left. exists v. splits; auto. split; auto.
    rewrite Vv, R. rewrite (Z.abs_eq (val x)), (Z.abs_neq (val y)) in * by lia.
    rewrite <- (Z.opp_involutive (val y)) at 3. rewrite (Z.mod_opp_r_nz (val x) (- val y)) by lia. lia.
  - left. exists r. splits; auto. split; auto. rewrite R, !Z.abs_eq by lia. reflexivity.
Qed.

(** *** Powers *)
Definition powers_nd (x : Int) (top : Z) (exact : Prop) (m : res Int) : Prop :=
  (exists e r, 0 <= e <= top /\ (exact -> e = top) /\ m = Ok r /\ wf r /\ val r = val x ^ e) \/ m = Throw OutOfRange.
Lemma powers_nd_le x t (P : Prop) t' (P' : Prop) m : t <= t' -> (P' -> P /\ t = t') -> powers_nd x t P m -> powers_nd x t' P' m.
Proof.
  intros L I [(e & r & H & X & R)|H]; [left|right; auto]. exists e, r. splits; try lia; try apply R.
  intros HP. destruct (I HP) as [HP' <-]. auto.
Qed.
Lemma powers_nd_mul x t P m : wf x -> powers_nd x t P m -> powers_nd x (t + 1) P (a <- m ;; op_mul_nd x a).
Proof.
  intros Hx [(e & r & He & X & -> & Wr & V)| ->]; [|right; auto]. cbn [bind].
  destruct (mul_nd_ok x r Hx Wr) as (p & Ep & Wp & Vp).
  left. exists (Z.succ e), p. splits; auto; try lia; try (intros HP; rewrite (X HP); lia); rewrite Z.pow_succ_r by lia; congruence.
Qed.
Lemma powers_nd_square x t P m : powers_nd x t P m -> powers_nd x (2 * t) P (a <- m ;; op_mul_nd a a).
Proof.
  intros [(e & r & He & X & -> & Wr & V)| ->]; [|right; auto]. cbn [bind].
  destruct (mul_nd_ok r r Wr Wr) as (p & Ep & Wp & Vp).
  left. exists (e + e), p. splits; auto; try lia; try (intros HP; rewrite (X HP); lia); rewrite Z.pow_add_r by lia; congruence.
Qed.
Lemma sub_one_nd y one : wf y -> wf one -> val one = 1 ->
  op_sub_nd y one = Throw OutOfRange \/
  exists r, op_sub_nd y one = Ok r /\ wf r /\ val r = val y - 1 /\ (val r = 0 -> negative r = false).
Proof.
  intros Hy Ho V. destruct (op_sub_nd_gen y one Hy Ho) as (H1 & H2 & H3). destruct (Bool.bool_dec (negative y) (negative one)) as [E|E].
  - destruct (fits_dec (size (subtrahend y one)) (Z.max (aval y) (aval one))) as [F|F]; [|left; auto].
    destruct (H2 E F) as (r & Er & C & Vr). right. exists r. splits; auto; [lia|].
    intros Z0. pose proof (canonical_neg_eq r C). lia.
  - pose proof (op_sub_gen y one Hy Ho) as Q. replace (Bool.eqb (negative y) (negative one)) with false in Q by (destruct (negative y), (negative one); cbn; congruence).
    cbn [andb] in Q. destruct Q as (r & Q & W & Vr & Z0 & _). rewrite (H1 E). right. exists r. splits; auto; lia.
Qed.
Lemma exp_powers_nd x : wf x -> forall fuel y, wf y -> nonneg y ->
  2 * Z.log2 (aval y) + (if Z.odd (aval y) then 1 else 0) + 1 <= Z.of_nat fuel ->
  powers_nd x (aval y) (no_radix_power (aval y)) (exponentiate_nd fuel x y).
Proof.
  intros Hx. induction fuel as [|f IH]; intros y Hy Hyn Hf.
  { pose proof (Z.log2_nonneg (aval y)). destruct (Z.odd (aval y)); lia. }
  pose proof (aval_nonneg y Hy) as Hy0.
  cbn [exponentiate_nd]. rewrite equals_int32_0 by auto. rewrite !bind_ok.
  destruct (Z.eqb_spec (aval y) 0) as [E0|E0].
  { left. rewrite set_value_ok by (unfold INT32_MIN, INT32_MAX; lia). eexists 0, _.
    splits; try reflexivity; try lia; apply one_canonical. }
  destruct (equals_int32 y 1) as [t|e| | |] eqn:E1.
  2-5: exfalso; rewrite (equals_int32_gen y 1) in E1 by (auto; unfold INT32_MIN, INT32_MAX; lia); discriminate E1.
  rewrite !bind_ok. destruct t.
  { left. exists 1, x. splits; auto; try lia; try (rewrite Z.pow_1_r; auto).
    intros N. rewrite equals_one in E1 by auto. injection E1 as E1. lia. }
  rewrite is_odd_spec, !bind_ok by auto.
  rewrite (val_nonneg_aval y Hyn).
  destruct (Z.odd (aval y)) eqn:Eo.
  - destruct (Int_of_int64_ok 1 0) as (one & Ho & Hov & Hoc & Hon & _); [unfold INT64_MIN, INT64_MAX; lia|].
    rewrite Ho, !bind_ok. rewrite pw_0 in Hov.
    destruct (sub_one_nd y one Hy (canonical_wf _ Hoc) ltac:(lia)) as [E|(ym1 & Hs & Hw & Hv & Hz)]; [rewrite E; right; reflexivity|].
    rewrite Hs, !bind_ok. rewrite (val_nonneg_aval y Hyn) in Hv.
    assert (Hyn' : nonneg ym1).
    { unfold nonneg. destruct (negative ym1) eqn:E; auto.
      pose proof (aval_nonneg _ Hw). rewrite val_aval, E in Hv.
      assert (H0 : val ym1 = 0) by (rewrite val_aval, E; lia). specialize (Hz H0). congruence. }
    rewrite (val_nonneg_aval _ Hyn') in Hv.
    apply powers_nd_le with (aval ym1 + 1) (no_radix_power (aval ym1)); [lia| |].
    { intros N. split; [|lia]. rewrite Hv. apply no_radix_dec; auto. }
    apply powers_nd_mul; auto. apply IH; auto.
    rewrite Hv. destruct (Z.eq_dec (aval y) 1) as [E|E].
    + rewrite E in *. change (Z.log2 (1-1)) with 0. change (Z.odd (1-1)) with false. change (Z.log2 1) with 0 in Hf. lia.
    + destruct (exp_measure_odd (aval y)) as [Hm Ho2]; [lia|auto|]. rewrite Ho2. lia.
  - destruct (divide_by_int_ok y 2 false Hy) as (h & Hh & Hw & Hneg & Hsz & Hv); [unfold INT32_MAX; lia|].
    assert (Ev : aval y = 2 * (aval y / 2)) by (rewrite (Z.div_mod (aval y) 2) at 1 by lia; rewrite Zmod_odd, Eo; lia).
    rewrite Hh, !bind_ok. apply powers_nd_le with (2 * aval h) (no_radix_power (aval h)); [lia| |].
    { intros N. split; [|lia]. rewrite Hv. apply no_radix_half; auto. }
    apply powers_nd_square. apply IH; auto.
    rewrite Hv. pose proof (exp_measure_even (aval y)). destruct (Z.odd (aval y / 2)); lia.
Qed.
Lemma exp_powers_neg_nd x y f : wf x -> wf y -> negative y = true -> aval y <> 0 -> Z.odd (aval y) = false ->
  2 * Z.log2 (aval y / 2) + (if Z.odd (aval y / 2) then 1 else 0) + 1 <= Z.of_nat f ->
  powers_nd x (aval y) False (exponentiate_nd (S f) x y).
Proof.
  intros Hx Hy Ny Nz Od Hf. cbn [exponentiate_nd]. rewrite equals_int32_0 by auto. rewrite !bind_ok.
  replace (aval y =? 0) with false by lia.
  rewrite (equals_int32_gen y 1) by (auto; unfold INT32_MIN, INT32_MAX; lia). rewrite !bind_ok.
  rewrite Ny. change (Bool.eqb true (1 <? 0) || (1 =? 0)) with false. rewrite andb_false_r.
  rewrite is_odd_spec, !bind_ok by auto.
  rewrite val_aval, Ny, Z.odd_opp, Od.
  destruct (divide_by_int_ok y 2 false Hy) as (h & Hh & Hw & Hneg & Hsz & Hv); [unfold INT32_MAX; lia|].
  rewrite Hh, !bind_ok. apply powers_nd_le with (2 * aval h) (no_radix_power (aval h)); [rewrite Hv; ldiv|contradiction|].
  apply powers_nd_square. apply exp_powers_nd; auto. rewrite Hv. exact Hf.
Qed.
Lemma pow_powers_nd x y : wf x -> wf y ->
  exists top, top <= aval y + 2 /\ (0 <= val y -> top = val y) /\ powers_nd x top (plain_exponent (val y)) (op_pow_nd x y).
Proof.
  intros Hx Hy. unfold op_pow_nd. pose proof (aval_nonneg y Hy) as P.
  pose proof (val_aval y) as Vy.
  destruct (negative y) eqn:Ny.
  2:{ exists (aval y). splits; try lia. apply powers_nd_le with (aval y) (no_radix_power (aval y)); [lia| |].
      - rewrite Vy. intros [_ N]. auto.
      - apply exp_powers_nd; auto. pose proof (exp_fuel_enough y (aval y) Hy). lia. }
  destruct (exp_fuel y) as [|f] eqn:Ef; [unfold exp_fuel in Ef; lia|].
  assert (FF : forall m, 0 <= m <= aval y + 1 -> 2 * Z.log2 m + (if Z.odd m then 1 else 0) + 1 <= Z.of_nat f - 1).
  { intros m Hm. pose proof (exp_fuel_enough y m Hy ltac:(lia)) as G. rewrite Ef in G. lia. }
  destruct (Z.eq_dec (aval y) 0) as [Z0|Z0].
  { exists 0. splits; try lia. cbn [exponentiate_nd]. rewrite equals_int32_0 by auto. rewrite !bind_ok. replace (aval y =? 0) with true by lia.
    left. rewrite set_value_ok by (unfold INT32_MIN, INT32_MAX; lia). eexists 0, _.
    splits; try reflexivity; try lia; apply one_canonical. }
  assert (NP : plain_exponent (val y) -> False) by (intros [N _]; lia).
  destruct (Z.odd (aval y)) eqn:Od.
  2:{ exists (aval y). splits; try lia. apply powers_nd_le with (aval y) False; [lia|tauto|]. apply exp_powers_neg_nd; auto.
      pose proof (FF (aval y / 2) ltac:(Z.to_euclidean_division_equations; lia)). lia. }
  exists (aval y + 2). splits; try lia.
  cbn [exponentiate_nd]. rewrite equals_int32_0 by auto. rewrite !bind_ok. replace (aval y =? 0) with false by lia.
  rewrite (equals_int32_gen y 1) by (auto; unfold INT32_MIN, INT32_MAX; lia). rewrite !bind_ok.
  rewrite Ny. change (Bool.eqb true (1 <? 0) || (1 =? 0)) with false. rewrite andb_false_r.
  rewrite is_odd_spec, !bind_ok by auto. replace (Z.odd (val y)) with true by (rewrite Vy, Z.odd_opp; auto).
  destruct (Int_of_int64_ok 1 0) as (one & Ho & Hov & Hoc & Hon & _); [unfold INT64_MIN, INT64_MAX; lia|].
  rewrite Ho, !bind_ok. rewrite pw_0 in Hov.
  destruct (sub_one_nd y one Hy (canonical_wf _ Hoc) ltac:(lia)) as [E|(ym1 & Hs & Hw & Hv & Hz)]; [rewrite E; right; reflexivity|].
  rewrite Hs, !bind_ok. rewrite Vy in Hv.
  assert (N1 : negative ym1 = true).
  { destruct (negative ym1) eqn:E; auto. pose proof (aval_nonneg _ Hw). rewrite val_aval, E in Hv. lia. }
  rewrite val_aval, N1 in Hv. assert (A1 : aval ym1 = aval y + 1) by lia.
  apply powers_nd_le with (aval ym1 + 1) False; [lia|tauto|]. apply powers_nd_mul; auto.
  destruct f as [|f]; [specialize (FF 0 ltac:(lia)); cbn in FF; lia|].
  apply exp_powers_neg_nd; auto; try lia.
  - rewrite A1, Z.add_1_r, Z.odd_succ, <- Z.negb_odd, Od. reflexivity.
  - rewrite A1. pose proof (FF ((aval y + 1) / 2) ltac:(Z.to_euclidean_division_equations; lia)). lia.
Qed.

Lemma binary_sound_nd o x y : wf x -> wf y -> sound_nd o x y (binary_nd o x y).
Proof.
  intros Hx Hy. destruct o; cbn [binary_nd].
  - apply add_sound_nd; auto.
  - apply sub_sound_nd; auto.
  - destruct (mul_nd_ok x y Hx Hy) as (r & E & W & V). left. exists r. splits; auto.
  - apply div_sound_nd; auto.
  - apply mod_sound_nd; auto.
  - destruct (pow_powers_nd x y Hx Hy) as (t & Ht & T & [(e & r & He & X & E & W & V)|E]).
    + left. exists r. splits; auto. exists e. splits; auto; [lia|rewrite abs_val by auto; lia|].
      intros PE. rewrite (X PE). apply T. apply PE.
    + right. right. split; [discriminate|auto].
Qed.

(** *** Division in place *)
Lemma firstn_wf x n : wf x -> (1 <= n)%nat -> wf (mkInt (clean_list (firstn n (bins x))) (negative x)) /\
  aval (mkInt (clean_list (firstn n (bins x))) (negative x)) = aval x mod pw n.
Proof.
  intros [Nx Hx] Hn. assert (F : Forall digit_ok (firstn n (bins x))).
  { rewrite <- (firstn_skipn n (bins x)) in Hx. apply Forall_app in Hx. apply Hx. }
  assert (Nb : firstn n (bins x) <> []) by (destruct n; [lia|]; destruct (bins x); [congruence|discriminate]).
  pose proof (clean_bins_wf (mkInt (firstn n (bins x)) (negative x)) (conj Nb F)) as (W & _ & _ & V).
  split; [exact W|]. unfold aval at 1. cbn [bins]. unfold aval, clean_bins in V. cbn [bins] in V. rewrite V. apply bins_val_firstn. exact Hx.
Qed.
Lemma div_left_sound x y : wf x -> wf y ->
  (exists r, divide_nd x y = (r, Ok tt) /\ wf r /\ val y <> 0 /\ val r = Z.quot (val x) (val y)) \/
  (val y = 0 /\ divide_nd x y = (x, Throw DivideByZero)) \/
  (exists l, divide_nd x y = (l, Throw OutOfRange) /\ wf l /\ digits_left (val x) (val y) (val l)).
Proof.
  intros Hx Hy. pose proof (abs_val x Hx) as Ax. pose proof (abs_val y Hy) as Ay.
  destruct (div_sound x y Hx Hy) as [(r & E & W & V)|[(_ & Z0 & E)|[_ E]]].
  - left. exists r. destruct V as [V0 V]. splits; auto. apply divide_keeps. exact E.
  - right. left. split; auto. unfold divide_nd. rewrite equals_int32_0 by auto. replace (aval y =? 0) with true by lia. reflexivity.
  - right. right. destruct (divide_nd_stuck x y Hx Hy E) as (j & (J1 & J2 & Jn & Jq & _) & E2).
    destruct (firstn_wf x (j + 1) Hx ltac:(lia)) as [W V]. eexists. splits; [exact E2|exact W|].
    destruct (divide_gen x y Hx Hy) as [[H0 Eq]|[(H0 & L & Eq)|(H0 & L & _)]]; [unfold op_div in E; congruence|unfold op_div in E; congruence|].
    split; [lia|]. rewrite Ax, Ay.
    assert (D : (aval x / pw j) mod B = 0) by (rewrite <- Jn; symmetry; apply nth_digit; apply Hx).
    assert (Ep : pw (j + 1) = pw j * B) by (rewrite Nat.add_1_r, pw_S; lia).
    pose proof (pw_pos j) as Pq. pose proof (aval_nonneg x Hx) as Pa.
    rewrite Ep, Z.rem_mul_r, D in V by lia.
    exists (Z.of_nat j). change (10 ^ 9) with B. change (B ^ Z.of_nat j) with (pw j).
    replace (B ^ (Z.of_nat j + 1)) with (pw (j + 1)) by (unfold pw; f_equal; lia).
    splits; auto; try lia.
    rewrite val_aval. cbn [negative]. rewrite V. rewrite (val_aval x). pose proof (Z.mod_0_l (pw j) ltac:(lia)) as M0.
    destruct (negative x), (Z.eq_dec (aval x) 0) as [Q|Q].
    + rewrite Q, M0. cbn. lia.
    + rewrite Z.sgn_neg by lia. lia.
    + rewrite Q, M0. cbn. lia.
    + rewrite Z.sgn_pos by lia. lia.
Qed.
Lemma iter_div10_left n : forall x, wf x ->
  (exists r, iter_div10_nd n x = (r, Ok tt) /\ wf r /\ val r = Z.quot (val x) (10 ^ Z.of_nat n)) \/
  (exists k l, 0 <= k < Z.of_nat n /\ iter_div10_nd n x = (l, Throw OutOfRange) /\ wf l /\ digits_left (Z.quot (val x) (10 ^ k)) 10 (val l)).
Proof.
  induction n as [|n IH]; intros x Hx; cbn [iter_div10_nd].
  - left. exists x. splits; auto. cbn. rewrite Z.quot_1_r. reflexivity.
  - destruct ten_ok as (t & -> & Ct & Vt & _). unfold div_assign_nd. cbn [rd].
    destruct (div_left_sound x t Hx ltac:(auto)) as [(r & -> & W & _ & V)|[[Z0 _]|(l & -> & W & D)]]; [|lia|].
    + destruct (IH r W) as [(v & Ev & Wv & Vv)|(k & l & Hk & El & Wl & D)].
      * left. exists v. splits; auto. rewrite Vv, V, Vt.
        pose proof (Z.pow_pos_nonneg 10 (Z.of_nat n) ltac:(lia) ltac:(lia)).
        rewrite Z.quot_quot by lia. f_equal. rewrite Nat2Z.inj_succ, Z.pow_succ_r by lia. reflexivity.
      * right. exists (Z.succ k), l. splits; auto; [lia|lia|]. rewrite Z.pow_succ_r by lia.
        pose proof (Z.pow_pos_nonneg 10 k ltac:(lia) ltac:(lia)). rewrite <- Z.quot_quot by lia. rewrite V, Vt in D. exact D.
    + right. exists 0, l. splits; auto; [lia|lia|]. rewrite Z.pow_0_r, Z.quot_1_r. rewrite Vt in D. exact D.
Qed.
Lemma scale_left x p : wf x -> INT32_MIN < p <= INT32_MAX ->
  (exists r, times_power_ten_nd x p = (r, Ok tt) /\ wf r /\ val r = if 0 <=? p then val x * 10 ^ p else Z.quot (val x) (10 ^ (- p))) \/
  (p < 0 /\ exists l k, times_power_ten_nd x p = (l, Throw OutOfRange) /\ wf l /\ 0 <= k < - p /\ digits_left (Z.quot (val x) (10 ^ k)) 10 (val l)).
Proof.
  intros Hx Hp. destruct (scale_sound x p Hx Hp) as [(r & E & W & V)|[L E]].
  { left. exists r. splits; auto. apply times_power_ten_keeps. exact E. }
  unfold times_power_ten_nd. replace (p >? 0) with false by lia. replace (p <? 0) with true by lia.
  rewrite i32_ok by (unfold INT32_MIN, INT32_MAX in *; lia). unfold BIN_WIDTH.
  set (n := - p). rewrite Z.quot_div_nonneg, Z.rem_mod_nonneg by lia.
  pose proof (Z.mod_pos_bound n 9 ltac:(lia)) as M. pose proof (Z.div_mod n 9 ltac:(lia)) as D.
  assert (Hq : 0 <= n / 9) by (apply Z.div_pos; lia).
  set (q := Z.to_nat (n / 9)).
  assert (Eq : pw q = 10 ^ (9 * (n / 9))).
  { unfold pw, q. rewrite Z2Nat.id by lia. change B with (10 ^ 9). rewrite <- Z.pow_mul_r by lia. reflexivity. }
  assert (Vfin : forall m, 0 <= m -> Z.quot (Z.quot (val x) (pw q)) (10 ^ m) = Z.quot (val x) (10 ^ (9 * (n / 9) + m))).
  { intros m Hm. pose proof (pw_pos q). pose proof (Z.pow_pos_nonneg 10 m ltac:(lia) ltac:(lia)).
    rewrite Z.quot_quot by lia. f_equal. rewrite Eq, <- Z.pow_add_r by lia. reflexivity. }
  pose proof (skipn_val_wf x q Hx) as Vs.
  replace (0 <=? p) with false by lia.
  destruct (skipn q (bins x)) as [|b0 l0] eqn:Es.
  - left. exists (mkInt [0] false). splits; [reflexivity|apply canonical_zero|].
    replace n with (9 * (n / 9) + n mod 9) by lia. rewrite <- Vfin, <- Vs by lia. unfold val. cbn.
    pose proof (Z.pow_pos_nonneg 10 (n mod 9) ltac:(lia) ltac:(lia)).
    destruct (negative x); cbn; rewrite Z.quot_0_l by lia; reflexivity.
  - assert (Wk : wf (mkInt (b0 :: l0) (negative x))).
    { split; cbn [bins]; [discriminate|]. rewrite <- Es. apply Forall_skipn_. apply Hx. }
    destruct (iter_div10_left (Z.to_nat (n mod 9)) _ Wk) as [(r & Er & W & V)|(k & l & Hk & El & Wl & Dl)].
    + left. exists r. splits; auto. rewrite V, Vs, Z2Nat.id by lia. rewrite Vfin by lia. f_equal. f_equal. lia.
    + right. split; auto. exists l, (9 * (n / 9) + k). splits; auto; try lia. rewrite Vs, Vfin in Dl by lia. exact Dl.
Qed.

(** *** One call *)
Definition behaves (st : nat -> Int) (c : call) (p : Int * res unit) : Prop :=
  match snd p with
  | Ok _ => wf (fst p) /\ zvalue (vals st) c (val (fst p))
  | Throw DivideByZero => fst p = st (dest c) /\ divides_by_zero (vals st) c
  | Throw InvalidArgument => fst p = st (dest c) /\ exists d t, c = Parse d t /\ forall z, ~ int_text t z
  | Throw OutOfRange => wf (fst p) /\ may_assert c /\ zleft (vals st) c (val (fst p))
  | _ => False
  end.
Lemma behaves_in_place st c o x y m : sound_nd o x y m -> wf (st (dest c)) ->
  (forall r, zresult o (val x) (val y) r -> zvalue (vals st) c r) ->
  ((o = Div \/ o = Mod) -> val y = 0 -> divides_by_zero (vals st) c) ->
  (o <> Mul -> may_assert c /\ zleft (vals st) c (val (st (dest c)))) ->
  behaves st c (in_place (st (dest c)) m).
Proof.
  intros [(r & -> & W & V)|[(O & Z & ->)|[O ->]]] Hw H1 H2 H3; unfold behaves; cbn [in_place fst snd]; auto.
Qed.
Lemma call_behaves st c : all_wf st -> arguments_ok c -> behaves st c (result_nd st c).
Proof.
  intros Hw Ha.
  assert (Plain : ~ may_assert c -> behaves st c (in_place (st (dest c)) (result st c))).
  { intros Hm. pose proof (call_well_behaved st c Hw Ha) as G. unfold well_behaved, perform in G. unfold behaves.
    destruct (result st c) as [r|[]| | |]; cbn [bind in_place fst snd] in *; try contradiction; try (split; [reflexivity|exact G]).
    destruct G as [W [Z _]]. split.
    - specialize (W (dest c)). unfold upd in W. rewrite Nat.eqb_refl in W. exact W.
    - unfold vals at 2 in Z. unfold upd in Z. rewrite Nat.eqb_refl in Z. exact Z. }
  destruct c as [d k s|d a s|d t|d i|d v|d p|d a|d|o d a b|o d b]; cbn [result_nd].
  1-5, 7-8: apply Plain; intros H; exact H.
  - destruct (scale_left (st d) p (Hw d) Ha) as [(r & -> & W & V)|(L & l & k & -> & W & K & D)]; unfold behaves; cbn [fst snd]; [split; auto|].
    splits; auto. cbn [zleft]. exists k. auto.
  - apply (behaves_in_place st (Binary o d a b) o (st a) (st b)); [apply binary_sound_nd; apply Hw|apply Hw|intros r H; exact H|intros [->| ->] Z; exact Z|].
    intros O. split; [exact O|reflexivity].
  - set (ot := if Nat.eqb d b then None else Some (st b)).
    assert (Hot : rd (st d) ot = st b).
    { unfold ot. destruct (Nat.eqb d b) eqn:E; cbn; auto. apply Nat.eqb_eq in E as ->. auto. }
    assert (Wot : forall y, ot = Some y -> wf y) by (intros y; unfold ot; destruct (Nat.eqb d b); [discriminate|]; intros [= <-]; auto).
    destruct o; cbn [assign_left assign_nd].
    + destruct (addsub_left_sound false (st d) ot (Hw d) Wot) as [(r & E & W & V)|(l & E & W & Sg & L)]; unfold behaves, add_assign_left; rewrite E; cbn [fst snd]; rewrite Hot in *; splits; auto.
      * discriminate.
      * cbn [zleft]. split; auto.
    + destruct (addsub_left_sound true (st d) ot (Hw d) Wot) as [(r & E & W & V)|(l & E & W & Sg & L)]; unfold behaves, sub_assign_left; rewrite E; cbn [fst snd]; rewrite Hot in *; splits; auto.
      * discriminate.
      * cbn [zleft]. split; auto.
    + destruct (mul_assign_ok (st d) ot (Hw d) Wot) as (r & E & W & V & _). rewrite Hot in V. unfold behaves.
      rewrite (mul_assign_keeps _ _ _ E). cbn [in_place fst snd]. split; auto.
    + unfold div_assign_nd. rewrite Hot. unfold behaves.
      destruct (div_left_sound (st d) (st b) (Hw d) (Hw b)) as [(r & -> & W & N & V)|[[Z0 ->]|(l & -> & W & D)]]; cbn [fst snd].
      * split; auto. split; auto.
      * auto.
      * splits; auto. discriminate.
    + unfold mod_assign_nd. rewrite Hot. apply (behaves_in_place st (Assign Mod d b) Mod (st d) (st b)); [apply (binary_sound_nd Mod); apply Hw|apply Hw|intros r H; exact H|intros _ Z; exact Z|].
      intros _. split; [discriminate|reflexivity].
    + unfold pow_assign_nd. rewrite Hot. apply (behaves_in_place st (Assign Pow d b) Pow (st d) (st b)); [apply (binary_sound_nd Pow); apply Hw|apply Hw|intros r H; exact H| |].
      * intros [H|H]; discriminate.
      * intros _. split; [discriminate|reflexivity].
Qed.

(** *** Programs *)
Lemma attempt_ok st c : all_wf st -> arguments_ok c ->
  exists st' e, attempt st c = Ok (st', e) /\ all_wf st' /\ zattempt (vals st) c e (vals st').
Proof.
  intros Hw Ha. pose proof (call_behaves st c Hw Ha) as G. unfold behaves in G. unfold attempt.
  destruct (result_nd st c) as [l m]. cbn [fst snd] in G.
  assert (Gen : forall e, wf l -> match e with
    | Finished => zvalue (vals st) c (val l)
    | Caught DivideByZero => divides_by_zero (vals st) c /\ val l = vals st (dest c)
    | Caught InvalidArgument => (exists d t, c = Parse d t /\ forall z, ~ int_text t z) /\ val l = vals st (dest c)
    | Caught OutOfRange => may_assert c /\ zleft (vals st) c (val l)
    | Caught DomainError => False end ->
    all_wf (upd st (dest c) l) /\ zattempt (vals st) c e (vals (upd st (dest c) l))).
  { intros e W H. split; [|split].
    - intros n. unfold upd. destruct (Nat.eqb n (dest c)); auto.
    - intros n Hn. unfold vals, upd. apply Nat.eqb_neq in Hn. rewrite Hn. reflexivity.
    - assert (E : vals (upd st (dest c) l) (dest c) = val l) by (unfold vals, upd; rewrite Nat.eqb_refl; reflexivity). rewrite E. exact H. }
  destruct m as [u|[]| | |]; try contradiction; eexists _, _; (split; [reflexivity|]).
  - destruct G as [W V]. apply (Gen Finished); auto.
  - destruct G as [-> H]. apply (Gen (Caught DivideByZero)); auto.
  - destruct G as [-> H]. apply (Gen (Caught InvalidArgument)); auto.
  - destruct G as (W & H). apply (Gen (Caught OutOfRange)); auto.
Qed.
Lemma attempts_ok p : forall st, all_wf st -> Forall arguments_ok p ->
  exists st' es, attempt_all st p = Ok (st', es) /\ all_wf st' /\ zattempts (vals st) p es (vals st').
Proof.
  induction p as [|c p IH]; intros st Hw Ha; cbn [attempt_all].
  - exists st, []. splits; auto. constructor. auto.
  - inversion Ha; subst. destruct (attempt_ok st c Hw H1) as (st1 & e & -> & W1 & Z1). cbn [bind fst snd].
    destruct (IH st1 W1 H2) as (st2 & es & -> & W2 & Z2). cbn [bind fst snd]. exists st2, (e :: es). splits; auto. econstructor; eauto.
Qed.

(** A call that returns with assertions does the same without them. *)
Lemma addsub_left_keeps s x o r : addsub_assign 3 s x o = Ok r -> addsub_left 3 s x o = (r, Ok tt).
Proof.
  intros E. apply addsub_assign_keeps in E. rewrite <- addsub_left_nd in E. unfold finish in E.
  destruct (addsub_left 3 s x o) as [l [[]|?| | |]]; cbn in E; try discriminate. congruence.
Qed.
Lemma call_keeps st c r : result st c = Ok r -> result_nd st c = (r, Ok tt).
Proof.
  intros E. destruct c as [d k s|d a s|d t|d i|d v|d p|d a|d|o d a b|o d b]; cbn [result_nd]; try (rewrite E; reflexivity); cbn [result] in E.
  - apply times_power_ten_keeps. exact E.
  - rewrite (proj1 (C120_same o (st a) (st b) None 0 r) E). reflexivity.
  - destruct o; cbn [assign_left]; try (apply (C120_same _ (st d) (st d) _ 0 r); exact E); apply addsub_left_keeps; exact E.
Qed.

(** *** When += and -= throw *)
Lemma sum_throws s x o : wf x -> (forall y, o = Some y -> wf y) -> let y := rd x o in
  snd (addsub_left 3 s x o) = Throw OutOfRange <->
  xorb s (xorb (negative x) (negative y)) = true /\
  (if aval y <? aval x then (size x < size y)%nat else (size y < size x)%nat).
Proof.
  intros Hx Ho y. assert (addsub_left 3 s x o = addsub_left 3 s x (Some y) /\ wf y) as [-> Hy].
  { subst y. destruct o as [y|]; cbn [rd]; auto. split; auto. apply addsub_left_alias. }
  clearbody y. clear o Ho.
  assert (Sub : forall f x y, wf x -> wf y -> nonneg x -> nonneg y ->
    snd (addsub_left (S f) true x (Some y)) = Throw OutOfRange <-> (if aval y <? aval x then (size x < size y)%nat else (size y < size x)%nat)).
  { clear. unfold nonneg. intros f x y Hx Hy Nx Ny. cbn [addsub_left rd]. rewrite Nx, Ny. cbn [andb negb]. rewrite op_gt_spec by assumption.
    rewrite !val_aval, Nx, Ny. destruct (Z.gtb_spec (aval x) (aval y)) as [G|G].
    - replace (aval y <? aval x) with true by lia. split.
      + intros E. destruct (le_lt_dec (size y) (size x)) as [L|L]; auto.
        destruct (subtract_nd_ok x y Hx Hy L ltac:(lia)) as (r & Er & _). rewrite <- subtract_left_nd in Er. unfold finish in Er. rewrite E in Er. discriminate.
      + intros L. destruct (subtract_left_short x y Hx Hy L ltac:(lia)) as (l & -> & _). reflexivity.
    - replace (aval y <? aval x) with false by lia. split.
      + intros E. destruct (le_lt_dec (size x) (size y)) as [L|L]; auto.
        destruct (subtract_nd_ok y x Hy Hx L ltac:(lia)) as (r & Er & W & _). rewrite Er in E. cbn [bind] in E.
        destruct (negate_ok r W) as (r' & Er' & _). rewrite Er' in E. discriminate.
      + intros L. rewrite subtract_nd_short by auto. reflexivity. }
  assert (Then : forall p, (forall l, p = (l, Ok tt) -> wf l) -> snd (then_ p negate_left) = Throw OutOfRange <-> snd p = Throw OutOfRange).
  { intros [l [[]|e| | |]] W; cbn [then_ snd]; try tauto. unfold negate_left. destruct (negate_ok l (W l eq_refl)) as (r & -> & _). cbn. split; discriminate. }
  remember 2%nat as f eqn:Ef. cbn [addsub_left rd].
  destruct (negative x) eqn:Nx, (negative y) eqn:Ny; cbn [andb negb].
  - destruct (op_neg_nonneg y Hy Ny) as (ny & -> & W2 & N2 & V2 & B2).
    destruct (negate_nonneg x Hx Nx) as (nx & E1 & W1 & N1 & V1 & B1).
    assert (NL : negate_left x = (nx, Ok tt)) by (unfold negate_left; rewrite E1; reflexivity). rewrite !NL. cbn [then_]. subst f.
    assert (Sx : size nx = size x /\ aval nx = aval x /\ size ny = size y /\ aval ny = aval y) by (unfold size, aval; rewrite B1, B2; auto). destruct Sx as (Sx1 & Sx2 & Sx3 & Sx4).
    destruct s; cbn [xorb].
    + rewrite Then, Sub by (auto; intros l El; destruct (left_sub_nonneg 1 nx ny W1 W2 N1 N2) as [(r & E & W & _)|(r & E & W & _)]; rewrite E in El; congruence).
      rewrite Sx1, Sx2, Sx3, Sx4. tauto.
    + destruct (left_add_nonneg 1 nx ny W1 W2 N1 N2) as (r & E & W & _). rewrite Then, E by (intros l El; rewrite E in El; congruence). cbn. split; [discriminate|intros [? _]; discriminate].
  - destruct (negate_nonneg x Hx Nx) as (nx & E1 & W1 & N1 & V1 & B1).
    assert (NL : negate_left x = (nx, Ok tt)) by (unfold negate_left; rewrite E1; reflexivity). rewrite !NL. cbn [then_]. subst f.
    assert (Sx : size nx = size x /\ aval nx = aval x) by (unfold size, aval; rewrite B1; auto). destruct Sx as (Sx1 & Sx2).
    destruct s; cbn [xorb].
    + destruct (left_add_nonneg 1 nx y W1 Hy N1 Ny) as (r & E & W & _). rewrite Then, E by (intros l El; rewrite E in El; congruence). cbn. split; [discriminate|intros [? _]; discriminate].
    + rewrite Then, Sub by (auto; intros l El; destruct (left_sub_nonneg 1 nx y W1 Hy N1 Ny) as [(r & E & W & _)|(r & E & W & _)]; rewrite E in El; congruence).
      rewrite Sx1, Sx2. tauto.
  - destruct (op_neg_nonneg y Hy Ny) as (ny & -> & W2 & N2 & V2 & B2). subst f.
    assert (Sx : size ny = size y /\ aval ny = aval y) by (unfold size, aval; rewrite B2; auto). destruct Sx as (Sx3 & Sx4).
    destruct s; cbn [xorb].
    + destruct (left_add_nonneg 1 x ny Hx W2 Nx N2) as (r & -> & W & _). cbn. split; [discriminate|intros [? _]; discriminate].
    + rewrite Sub by auto. rewrite Sx3, Sx4. tauto.
  - destruct s; cbn [xorb].
    + pose proof (Sub f x y Hx Hy Nx Ny) as G. cbn [addsub_left rd] in G. rewrite Nx, Ny in G. cbn [andb negb] in G. rewrite G. tauto.
    + pose proof (left_add_nonneg f x y Hx Hy Nx Ny) as G. cbn [addsub_left rd] in G. rewrite Nx, Ny in G. cbn [andb negb] in G.
      destruct G as (r & -> & _). cbn. split; [discriminate|intros [? _]; discriminate].
Qed.
