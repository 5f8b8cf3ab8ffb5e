(** Proofs about compound assignments of Int when memory runs out (IntAllocModel.v). *)
From Coq Require Import ZifyBool.
From Verif Require Import Base IntModel IntSpec IntBasics IntAddSub IntMul IntDiv AllocModel IntAllocModel IntAllocSpec.
Import ListNotations.
Local Open Scope list_scope.
Local Open Scope Z_scope.

Section Runs.
Context (fails : nat -> bool) (half : list Z -> list Z -> list Z).

(** what holds if p ends, and if it runs out of memory *)
Definition runs {A} (p : step A) (s : Int) (Q : Int -> res A -> Prop) (L : Int -> Prop) : Prop :=
  forall n, match p s n with (z, _, Fin m) => Q z m | (z, _, NoMem) => L z end.
Definition stopped {A B} (m : res A) : res B := _ <- m ;; UB.
Section Rules.
Context {A B : Type} (k : A -> step B) (s : Int) (Q : Int -> res B -> Prop) (L : Int -> Prop).
Lemma r_may m a : L s -> m = Ok a -> runs (k a) s Q L -> runs (andnow (may fails m) k) s Q L.
Proof. intros Ls -> R n. unfold andnow, may. destruct (fails n); [exact Ls|]. apply R. Qed.
Lemma r_just m a : m = Ok a -> runs (k a) s Q L -> runs (andnow (just m) k) s Q L.
Proof. intros -> R n. apply R. Qed.
Lemma r_may_stop m : L s -> (forall a, m <> Ok a) -> Q s (stopped m) -> runs (andnow (may fails m) k) s Q L.
Proof. intros Ls N q n. unfold andnow, may. destruct (fails n); [exact Ls|]. destruct m; try exact q. edestruct N; reflexivity. Qed.
Lemma r_just_stop m : (forall a, m <> Ok a) -> Q s (stopped m) -> runs (andnow (just m) k) s Q L.
Proof. intros N q n. unfold andnow, just. destruct m; try exact q. edestruct N; reflexivity. Qed.
Lemma r_bind (p : step A) Q1 : runs p s Q1 L -> (forall z m, Q1 z m -> match m with Ok a => runs (k a) z Q L | _ => Q z (stopped m) end) -> runs (andnow p k) s Q L.
Proof. intros R K n. specialize (R n). unfold andnow. destruct (p s n) as [[z j] [m|]]; [|exact R]. specialize (K z m R). destruct m; [apply K|exact K..]. Qed.
End Rules.
Lemma r_here {B} (k : Int -> step B) s Q L : runs (k s) s Q L -> runs (andnow here k) s Q L.
Proof. intros R n. apply R. Qed.
Lemma r_put {B} (k : unit -> step B) s s' Q L : runs (k tt) s' Q L -> runs (andnow (put s') k) s Q L.
Proof. intros R n. apply R. Qed.
Lemma r_weak {A} (p : step A) s (Q Q' : Int -> res A -> Prop) (L L' : Int -> Prop) : runs p s Q L -> (forall z m, Q z m -> Q' z m) -> (forall z, L z -> L' z) -> runs p s Q' L'.
Proof. intros R HQ HL n. specialize (R n). destruct (p s n) as [[z j] [m|]]; auto. Qed.
Definition gives (r : Int) (z : Int) (m : res unit) : Prop := m = Ok tt /\ z = r.
Lemma r_end_put s s' (L : Int -> Prop) : runs (put s') s (gives s') L.
Proof. intros n. split; reflexivity. Qed.
Lemma r_end_may s (L : Int -> Prop) : L s -> runs (may fails (Ok tt)) s (gives s) L.
Proof. intros Ls n. unfold may. destruct (fails n); [exact Ls|split; reflexivity]. Qed.
Lemma r_end_just s (L : Int -> Prop) : runs (just (Ok tt)) s (gives s) L.
Proof. intros n. split; reflexivity. Qed.
Lemma r_swap r s (L : Int -> Prop) : L s -> L r -> L (mkInt (half (bins s) (bins r)) (negative s)) -> runs (swap_m fails half r) s (gives r) L.
Proof.
  intros Ls Lr Lh. apply (r_may _ _ _ _ _ tt); auto. eapply (r_bind _ _ _ _ _ (gives r)).
  - intros n. unfold assign_m. destruct (fails n); [exact Lh|split; reflexivity].
  - intros z m [-> ->]. apply r_end_may, Lr.
Qed.
Lemma r_negate s r (L : Int -> Prop) : negate s = Ok r -> runs negate_m s (gives r) L.
Proof. intros E. apply r_here. apply (r_just _ _ _ _ _ r); auto. apply r_end_put. Qed.
(** *** Sums *)
Lemma carry_bins_ok bs : forall c, Forall digit_ok bs -> 0 <= c <= 1 ->
  exists fs k, carry_bins bs c = Ok (fs, k) /\ Forall digit_ok fs /\ length fs = length bs /\ 0 <= k <= 1 /\ bins_val fs + k * pw (length bs) = bins_val bs + c /\
    add_carry bs c = Ok (if k =? 0 then fs else fs ++ [k]).
Proof.
  induction bs as [|b bs IH]; intros c Hd Hc; cbn [carry_bins add_carry].
  - exists [], c. cbn [length bins_val app]. rewrite pw_0. splits; try lia; auto. destruct (c =? 0); reflexivity.
  - destruct (Z.eqb_spec c 0).
    + subst. exists (b :: bs), 0. splits; auto; lia.
    + inversion Hd as [|? ? Hb Hd']; subst. unfold digit_ok in Hb. rewrite i32_ok by (unfold INT32_MIN, INT32_MAX; lia). cbn [bind].
      unfold BIN_LIMIT. destruct (quot_rem_carry (b + c) ltac:(lia)) as [Q1 [Q2 Q3]].
      destruct (IH _ Hd' Q1) as (fs & k & E1 & D & Len & K & V & E2). rewrite E1, E2. cbn [bind fst snd]. eexists _, k. split; [reflexivity|]. splits.
      * constructor; [exact Q3|exact D].
      * cbn [length]. lia.
      * lia.
      * lia.
      * cbn [length bins_val]. rewrite pw_S. lia.
      * destruct (k =? 0); reflexivity.
Qed.
Lemma sum_bins_ok xs : forall bs c, Forall digit_ok bs -> Forall digit_ok xs -> (length xs <= length bs)%nat -> 0 <= c <= 1 ->
  exists fs k, sum_bins bs xs c = Ok (fs, k) /\ Forall digit_ok fs /\ length fs = length bs /\ 0 <= k <= 1 /\ bins_val fs + k * pw (length bs) = bins_val bs + bins_val xs + c /\
    add_loop bs xs c = Ok (if k =? 0 then fs else fs ++ [k]).
Proof.
  induction xs as [|x xs IH]; intros bs c Hb Hx Hl Hc; cbn [sum_bins add_loop].
  - destruct (carry_bins_ok bs c Hb Hc) as (fs & k & K). exists fs, k. cbn [bins_val]. replace (bins_val bs + 0 + c) with (bins_val bs + c) by lia. exact K.
  - destruct bs as [|b bs]; cbn in Hl; [lia|]. inversion Hb as [|? ? Hb0 Hb']; inversion Hx as [|? ? Hx0 Hx']; subst. unfold digit_ok in Hb0, Hx0.
    rewrite i32_ok by (unfold INT32_MIN, INT32_MAX; lia). cbn [bind]. rewrite i32_ok by (unfold INT32_MIN, INT32_MAX; lia). cbn [bind].
    unfold BIN_LIMIT. destruct (quot_rem_carry (b + x + c) ltac:(lia)) as [Q1 [Q2 Q3]].
    destruct (IH bs _ Hb' Hx' ltac:(lia) Q1) as (fs & k & E1 & D & Len & K & V & E2). rewrite E1, E2. cbn [bind fst snd]. eexists _, k. split; [reflexivity|]. splits.
    + constructor; [exact Q3|exact D].
    + cbn [length]. lia.
    + lia.
    + lia.
    + cbn [length bins_val]. rewrite pw_S. lia.
    + destruct (k =? 0); reflexivity.
Qed.
Definition carry_lost (x y z : Int) : Prop :=
  let k := Nat.max (size x) (size y) in pw k <= aval x + aval y /\ wf z /\ size z = k /\ aval z = aval x + aval y - pw k /\ negative z = negative x.
Lemma r_add x y : wf x -> wf y -> exists r, add_ x y = Ok r /\ runs (add_m fails y) x (gives r) (fun z => z = x \/ carry_lost x y z).
Proof.
  intros Hx Hy. set (bs := if (size x <? size y)%nat then bins x ++ repeat 0 (size y - size x) else bins x).
  assert (Hb : Forall digit_ok bs /\ bins_val bs = aval x /\ length bs = Nat.max (size x) (size y)).
  { subst bs. unfold aval, size in *. destruct (Nat.ltb_spec (length (bins x)) (length (bins y))).
    - splits; [apply Forall_app; split; [apply Hx|apply Forall_repeat0]| |rewrite app_length, repeat_length; lia].
      rewrite bins_val_app, bins_val_repeat. lia.
    - splits; [apply Hx|reflexivity|lia]. }
  destruct Hb as (Db & Vb & Lb). destruct (sum_bins_ok (bins y) bs 0 Db (proj2 Hy)) as (fs & k & E1 & D & Len & K & V & E2); [fold (size y); lia|lia|].
  exists (mkInt (if k =? 0 then fs else fs ++ [k]) (negative x)). unfold add_. fold bs. rewrite E2. split; [reflexivity|].
  unfold add_m. apply r_here.
  assert (R : runs (st <! just (sum_bins bs (bins y) 0) ;; _ <! put (mkInt (fst st) (negative x)) ;; (if snd st =? 0 then just (Ok tt) else _ <! may fails (Ok tt) ;; put (mkInt (fst st ++ [snd st]) (negative x))))
    (mkInt bs (negative x)) (gives (mkInt (if k =? 0 then fs else fs ++ [k]) (negative x))) (fun z => z = x \/ carry_lost x y z)).
  { eapply r_just; [exact E1|]. apply r_put. cbn [fst snd]. destruct (Z.eqb_spec k 0); [apply r_end_just|]. eapply r_may; [|reflexivity|apply r_end_put].
    right. assert (k = 1) by lia. subst k. assert (wf (mkInt fs (negative x))).
    { split; cbn [bins]; [|exact D]. destruct fs; [|discriminate]. cbn [length] in Len. destruct Hx as [Nx _]. unfold size in *. destruct (bins x); [congruence|cbn [length] in *; lia]. }
    pose proof (bins_val_bound fs D). unfold carry_lost. rewrite Len in *. rewrite <- Lb. unfold aval in *. cbn [bins negative]. splits; auto; try lia. }
  eapply (r_bind _ _ _ _ _ (gives (mkInt bs (negative x)))).
  - subst bs. destruct x as [bx nx]. cbn [bins negative]. destruct (_ <? _)%nat; [|apply r_end_just]. apply (r_may _ _ _ _ _ tt); auto. apply r_end_put.
  - intros z m [-> ->]. apply r_here. exact R.
Qed.
(** += and -= without a sign *)
Lemma r_add_nonneg f x y : wf x -> wf y -> nonneg x -> nonneg y ->
  exists r, addsub_assign (S f) false x (Some y) = Ok r /\ runs (addsub_m fails half (S f) false (Some y)) x (gives r) (fun z => z = x \/ carry_lost x y z).
Proof.
  unfold nonneg. intros Hx Hy Nx Ny. destruct (r_add x y Hx Hy) as (r & E & R). exists r. cbn [addsub_assign addsub_m rd]. split.
  - rewrite Nx, Ny. exact E.
  - apply r_here. cbn [rd]. rewrite Nx, Ny. cbn [andb negb]. apply (r_may _ _ _ _ _ y); auto.
Qed.
Definition diff_left (x y z : Int) : Prop := aval x <= aval y /\ exists r, is_the (aval x - aval y) r /\ (z = r \/ z = mkInt (half (bins x) (bins r)) (negative x)).
Lemma r_sub_nonneg f x y : wf x -> wf y -> trimmed (bins x) -> trimmed (bins y) -> nonneg x -> nonneg y ->
  exists r, addsub_assign (S f) true x (Some y) = Ok r /\ runs (addsub_m fails half (S f) true (Some y)) x (gives r) (fun z => z = x \/ diff_left x y z).
Proof.
  unfold nonneg. intros Hx Hy Tx Ty Nx Ny. destruct (asg_sub_nonneg f x y Hx Hy Tx Ty Nx Ny) as (r & E & C & V). exists r. split; [exact E|].
  cbn [addsub_assign addsub_m rd] in *. apply r_here. cbn [rd]. rewrite Nx, Ny in *. cbn [andb negb] in *. rewrite op_gt_spec in * by assumption. cbn [bind] in E.
  eapply r_just; [reflexivity|]. rewrite !val_aval, Nx, Ny in *. destruct (Z.gtb_spec (aval x) (aval y)).
  - unfold subtract in E. apply r_here. destruct (assert_top x) as [[]| | | |]; cbn [bind] in E; try discriminate. destruct (assert_top y) as [[]| | | |]; cbn [bind] in E; try discriminate.
    apply (r_just _ _ _ _ _ tt); auto. apply (r_just _ _ _ _ _ tt); auto.
    destruct (abs_Int x) as [a1| | | |]; cbn [bind] in E; try discriminate. destruct (abs_Int y) as [a2| | | |]; cbn [bind] in E; try discriminate.
    destruct (op_ge a1 a2) as [ge| | | |] eqn:G; cbn [bind] in E; try discriminate. apply (r_may _ _ _ _ _ ge); [auto|exact G|].
    destruct (assert_ ge) as [[]| | | |] eqn:Ga; cbn [bind] in E; try discriminate. apply (r_just _ _ _ _ _ tt); [reflexivity|].
    destruct (sub_loop (bins x) (bins y) 0) as [bs| | | |] eqn:Sb; cbn [bind] in E; try discriminate. apply (r_just _ _ _ _ _ bs); [reflexivity|].
    injection E as <-. apply r_end_put.
  - apply (r_may _ _ _ _ _ r); [auto|exact E|]. apply r_swap; auto.
    + right. split; [lia|]. exists r. split; [split; [exact C|rewrite val_aval; exact V]|auto].
    + right. split; [lia|]. exists r. split; [split; [exact C|rewrite val_aval; exact V]|auto].
Qed.
Lemma addsub_m_alias f b s n : addsub_m fails half f b None s n = addsub_m fails half f b (Some s) s n.
Proof.
  destruct f; [reflexivity|]. cbn [addsub_m]. assert (H : forall (k : Int -> step unit), andnow here k s n = k s s n) by reflexivity.
  rewrite !H. cbn [rd]. destruct (negative s); reflexivity.
Qed.
Lemma carry_lost_left x y x0 y0 (L := left_by_sum half true x0 y0) z : wf x -> nonneg x -> wf y -> bins x = bins x0 -> bins y = bins y0 -> carry_lost x y z -> L z.
Proof.
  unfold nonneg. intros Wx Nx Wy Bx By (Hk & Hw & Hs & Ha & Hn). subst L. unfold left_by_sum. right. right. exists (Nat.max (size x) (size y)).
  assert (Ax : Z.abs (val x0) = aval x) by (rewrite val_aval, (aval_bins x x0 Bx); pose proof (aval_nonneg x Wx); rewrite <- (aval_bins x x0 Bx) in *; destruct (negative x0); lia).
  assert (Ay : Z.abs (val y0) = aval y) by (rewrite val_aval, (aval_bins y y0 By); pose proof (aval_nonneg y Wy); rewrite <- (aval_bins y y0 By) in *; destruct (negative y0); lia).
  rewrite Ax, Ay. unfold size in *. rewrite <- Bx, <- By. change (10 ^ 9) with 1000000000. unfold pw, BIN_LIMIT in *. splits; auto; try lia; try congruence. rewrite val_aval, Hn, Nx. exact Ha.
Qed.
Lemma diff_left_left x y x0 y0 z : wf x -> nonneg x -> wf y -> bins x = bins x0 -> bins y = bins y0 -> diff_left x y z -> left_by_sum half false x0 y0 z.
Proof.
  unfold nonneg. intros Wx Nx Wy Bx By (Hk & r & Hr & Hz). unfold left_by_sum. right. right.
  assert (Ax : Z.abs (val x0) = aval x) by (rewrite val_aval, (aval_bins x x0 Bx); pose proof (aval_nonneg x Wx); rewrite <- (aval_bins x x0 Bx) in *; destruct (negative x0); lia).
  assert (Ay : Z.abs (val y0) = aval y) by (rewrite val_aval, (aval_bins y y0 By); pose proof (aval_nonneg y Wy); rewrite <- (aval_bins y y0 By) in *; destruct (negative y0); lia).
  rewrite Ax, Ay. split; [exact Hk|]. destruct Hz as [ -> | -> ]; [left; exact Hr|right]. exists r. rewrite <- Bx, Nx. auto.
Qed.
Lemma abs_left adds x nx y : wf x -> negative x = true -> bins nx = bins x -> nonneg nx -> canonical x -> left_by_sum half adds x y nx.
Proof.
  unfold nonneg. intros W N B0 N0 C. right. left. split.
  - rewrite val_aval, N. pose proof (canonical_neg_eq x C). pose proof (aval_nonneg x W). rewrite val_aval, N in *. lia.
  - destruct nx. cbn in *. subst. reflexivity.
Qed.
Lemma addsub_runs b x y : canonical x -> canonical y ->
  exists r, addsub_assign 3 b x (Some y) = Ok r /\ runs (addsub_m fails half 3 b (Some y)) x (gives r) (left_by_sum half (xorb b (Bool.eqb (negative x) (negative y))) x y).
Proof.
  intros Cx Cy. assert (Hx : wf x) by auto. assert (Hy : wf y) by auto. assert (Tx : trimmed (bins x)) by auto. assert (Ty : trimmed (bins y)) by auto.
  assert (L0 : forall a, left_by_sum half a x y x) by (left; reflexivity).
  remember 2%nat as f eqn:Ef.
  destruct (negative x) eqn:Nx, (negative y) eqn:Ny.
  - destruct (op_neg_nonneg y Hy Ny) as [ny [E2 [W2 [N2 [V2 B2]]]]]. destruct (negate_nonneg x Hx Nx) as [nx [E1 [W1 [N1 [V1 B1]]]]].
    assert (exists r, addsub_assign f b nx (Some ny) = Ok r /\ wf r /\ runs (addsub_m fails half f b (Some ny)) nx (gives r) (left_by_sum half (xorb b (Bool.eqb true true)) x y)) as (r & E & W & R).
    { subst f. destruct b.
      - destruct (asg_sub_nonneg 1 nx ny W1 W2 ltac:(congruence) ltac:(congruence) N1 N2) as [r [E [C V]]].
        destruct (r_sub_nonneg 1 nx ny W1 W2 ltac:(congruence) ltac:(congruence) N1 N2) as [r' [E' R]]. exists r. splits; auto. rewrite E in E'. injection E' as <-.
        eapply r_weak; [exact R|auto|]. intros z [->|K]; [eapply abs_left; eauto|apply (diff_left_left nx ny); auto].
      - destruct (asg_add_nonneg 1 nx ny W1 W2 N1 N2) as [r [E [C [V _]]]].
        destruct (r_add_nonneg 1 nx ny W1 W2 N1 N2) as [r' [E' R]]. exists r. splits; auto. rewrite E in E'. injection E' as <-.
        eapply r_weak; [exact R|auto|]. intros z [->|K]; [eapply abs_left; eauto|apply (carry_lost_left nx ny); auto]. }
    destruct (negate_ok r W) as [r' [E' _]]. exists r'. cbn [addsub_assign addsub_m rd]. split; [rewrite Nx, Ny; cbn [andb negb]; rewrite E2, E1; cbn [bind]; destruct b; cbn [negb] in E; rewrite E; exact E'|].
    apply r_here. cbn [rd]. rewrite Nx, Ny. cbn [andb negb]. apply (r_may _ _ _ _ _ ny); auto. eapply r_bind; [apply r_negate, E1|]. intros z m [-> ->].
    eapply r_bind; [exact R|]. intros z m [-> ->]. apply r_negate, E'.
  - destruct (negate_nonneg x Hx Nx) as [nx [E1 [W1 [N1 [V1 B1]]]]].
    assert (exists r, addsub_assign f (negb b) nx (Some y) = Ok r /\ wf r /\ runs (addsub_m fails half f (negb b) (Some y)) nx (gives r) (left_by_sum half (xorb b (Bool.eqb true false)) x y)) as (r & E & W & R).
    { subst f. destruct b; cbn [negb].
      - destruct (asg_add_nonneg 1 nx y W1 Hy N1 Ny) as [r [E [C [V _]]]].
        destruct (r_add_nonneg 1 nx y W1 Hy N1 Ny) as [r' [E' R]]. exists r. splits; auto. rewrite E in E'. injection E' as <-.
        eapply r_weak; [exact R|auto|]. intros z [->|K]; [eapply abs_left; eauto|apply (carry_lost_left nx y); auto].
      - destruct (asg_sub_nonneg 1 nx y W1 Hy ltac:(congruence) ltac:(congruence) N1 Ny) as [r [E [C V]]].
        destruct (r_sub_nonneg 1 nx y W1 Hy ltac:(congruence) ltac:(congruence) N1 Ny) as [r' [E' R]]. exists r. splits; auto. rewrite E in E'. injection E' as <-.
        eapply r_weak; [exact R|auto|]. intros z [->|K]; [eapply abs_left; eauto|apply (diff_left_left nx y); auto]. }
    destruct (negate_ok r W) as [r' [E' _]]. exists r'. cbn [addsub_assign addsub_m rd]. split; [rewrite Nx, Ny; cbn [andb negb]; rewrite E1; cbn [bind]; destruct b; cbn [negb] in E; rewrite E; exact E'|].
    apply r_here. cbn [rd]. rewrite Nx, Ny. cbn [andb negb]. eapply r_bind; [apply r_negate, E1|]. intros z m [-> ->].
    eapply r_bind; [exact R|]. intros z m [-> ->]. apply r_negate, E'.
  - destruct (op_neg_nonneg y Hy Ny) as [ny [E2 [W2 [N2 [V2 B2]]]]].
    cbn [addsub_assign addsub_m rd]. rewrite Nx, Ny. cbn [andb negb]. rewrite E2. cbn [bind]. subst f. destruct b; cbn [negb xorb Bool.eqb].
    + destruct (r_add_nonneg 1 x ny Hx W2 Nx N2) as [r [E R]]. exists r. split; [exact E|]. apply r_here. cbn [rd]. rewrite Nx. cbn [andb negb]. apply (r_may _ _ _ _ _ ny); auto.
      eapply r_weak; [exact R|auto|]. intros z [->|K]; [apply L0|apply (carry_lost_left x ny); auto].
    + destruct (r_sub_nonneg 1 x ny Hx W2 ltac:(congruence) ltac:(congruence) Nx N2) as [r [E R]]. exists r. split; [exact E|]. apply r_here. cbn [rd]. rewrite Nx. cbn [andb negb]. apply (r_may _ _ _ _ _ ny); auto.
      eapply r_weak; [exact R|auto|]. intros z [->|K]; [apply L0|apply (diff_left_left x ny); auto].
  - destruct b; cbn [xorb Bool.eqb].
    + destruct (r_sub_nonneg f x y Hx Hy Tx Ty Nx Ny) as [r [E R]]. exists r. split; [exact E|]. eapply r_weak; [exact R|auto|]. intros z [->|K]; [apply L0|apply (diff_left_left x y); auto].
    + destruct (r_add_nonneg f x y Hx Hy Nx Ny) as [r [E R]]. exists r. split; [exact E|]. eapply r_weak; [exact R|auto|]. intros z [->|K]; [apply L0|apply (carry_lost_left x y); auto].
Qed.
Lemma sum_ends (b : bool) x o : let y := rd x o in canonical x -> canonical y ->
  ends (addsub_m fails half 3 b o) (addsub_assign 3 b x o) (left_by_sum half (xorb b (Bool.eqb (negative x) (negative y))) x y) x.
Proof.
  intros y Cx Cy. destruct (addsub_runs b x y Cx Cy) as (r & E & R).
  assert (E' : addsub_assign 3 b x o = Ok r) by (subst y; destruct o; [exact E|rewrite addsub_assign_alias; exact E]). rewrite E'.
  intros n. specialize (R n). assert (P : addsub_m fails half 3 b o x n = addsub_m fails half 3 b (Some y) x n) by (subst y; destruct o; [reflexivity|apply addsub_m_alias]). rewrite P.
  destruct (addsub_m fails half 3 b (Some y) x n) as [[z j] [m|]]; [destruct R as [-> ->]; cbn; auto|exact R].
Qed.
(** *** The quotient *)
Lemma step_arith a X P : 0 < X -> 0 < P -> let A := a / (B * P) in let d := (a / P) mod B in
  a / P = B * A + d /\ a / P / X = B * (A / X) + (B * (A mod X) + d) / X /\ (a / P) mod X = (B * (A mod X) + d) mod X /\ a mod (B * P) = d * P + a mod P.
Proof.
  intros HX HP A d. assert (EA : A = a / P / B) by (subst A; rewrite Z.mul_comm, Z.div_div by lia; reflexivity).
  pose proof (Z.div_mod (a / P) B ltac:(lia)) as D. rewrite <- EA in D. fold d in D.
  pose proof (Z.div_mod A X ltac:(lia)) as DX. assert (E : a / P = B * (A mod X) + d + B * (A / X) * X) by lia.
  splits; [exact D| | |].
  - rewrite E at 1. rewrite Z.div_add by lia. lia.
  - rewrite E at 1. rewrite Z.mod_add by lia. reflexivity.
  - pose proof (Z.div_mod a P ltac:(lia)). pose proof (Z.mod_pos_bound a P HP). pose proof (Z.mod_pos_bound (a / P) B ltac:(lia)). fold d in H1.
    symmetry. apply (Z.mod_unique_pos a (B * P) A (d * P + a mod P)); [nia|]. rewrite H at 1. rewrite D. nia.
Qed.
Lemma mid_digit P q d e H M : 0 < P -> 0 <= d < B -> 0 <= e < B -> 0 <= M < P -> forall L, 0 <= L < P ->
  L + P * (e + B * H) = B * P * q + (d * P + M) -> e = d /\ L = M /\ H = q.
Proof.
  intros HP Hd He HM L HL E. assert (E' : L + P * (e + B * H) = M + P * (d + B * q)) by lia.
  assert (e + B * H = d + B * q). { assert (G := f_equal (fun t => t / P) E'). cbv beta in G. rewrite !(Z.mul_comm P), !Z.div_add in G by lia. rewrite !Z.div_small in G by lia. lia. }
  assert (L = M) by nia. assert (e = d). { assert (G := f_equal (fun t => t mod B) H0). cbv beta in G. rewrite !(Z.mul_comm B), !Z.mod_add in G by lia. rewrite !Z.mod_small in G by lia. exact G. }
  splits; auto; lia.
Qed.
Definition partly (a X : Z) (i : nat) (l : list Z) : Prop := bins_val l = pw i * (a / pw i / X) + a mod pw i.
Section Quotient.
Context (xn x : Int) (Wn : wf xn) (Nn : nonneg xn) (Pn : 0 < aval xn) (Wx : wf x).
Let X := aval xn. Let a := aval x. Let n := size x.
Definition quotient_left (z : Int) : Prop := z = x \/ (wf z /\ negative z = negative x /\ (size z <= n)%nat /\ exists i, (i < n)%nat /\ partly a X i (bins z)).
Definition as_div_loop k bs r cur (z : Int) (m : res unit) : Prop :=
  m = (_ <- div_loop k xn bs r cur ;; Ok tt) /\ match div_loop k xn bs r cur with Ok bs' => z = mkInt bs' (negative x) | Throw _ => False | _ => True end.
Lemma r_div_loop k : forall bs r cur, (k <= n)%nat -> Forall digit_ok bs -> bs <> [] -> (length bs <= n)%nat -> partly a X k bs -> ((k < n)%nat \/ mkInt bs (negative x) = x) ->
  canonical cur -> nonneg cur -> aval cur = B * ((a / pw k) mod X) ->
  runs (div_loop_m fails k xn r cur) (mkInt bs (negative x)) (as_div_loop k bs r cur) quotient_left.
Proof.
  induction k as [|i IH]; intros bs r cur Hk Db Nb Lb Pb Hs Cc Nc Vc; [intros j; split; reflexivity|].
  cbn [div_loop_m]. unfold as_div_loop. cbn [div_loop]. apply r_here.
  pose proof (size_pos cur ltac:(auto)) as Sc. replace (0 <? size cur)%nat with true by lia. cbn [assert_ bind]. apply (r_just _ _ _ _ _ tt); [reflexivity|]. cbn [bins].
  destruct (Nat.ltb_spec i (length bs)) as [Hi|Hi]; [|apply r_just_stop; [discriminate|cbn; auto]]. cbn [assert_ bind]. apply (r_just _ _ _ _ _ tt); [reflexivity|].
  destruct (nth_split bs 0 Hi) as (lo & hi & Ebs & Hlo). set (bi := nth i bs 0) in *.
  assert (Ea : at_ bs i = Ok bi) by (rewrite Ebs, <- Hlo; apply at_mid).
  assert (Es : forall v, set_nth bs i v = Ok (lo ++ v :: hi)) by (intros; rewrite Ebs, <- Hlo; apply set_nth_mid).
  rewrite Ea. cbn [bind]. eapply r_just; [reflexivity|].
  rewrite Ebs in Db. apply Forall_app in Db as [Dl Dh]. inversion Dh as [|? ? Hbi Dh']; subst x0 l. assert (Hb' := Hbi). unfold digit_ok in Hb'.
  pose proof (pw_pos i) as PP. pose proof (step_arith a X (pw i) Pn PP) as (A1 & A2 & A3 & A4). rewrite <- pw_S in *.
  set (A := a / pw (S i)) in *. set (d := (a / pw i) mod B) in *. set (rem := A mod X) in *.
  pose proof (Z.mod_pos_bound A X Pn) as Hrem. fold rem in Hrem. pose proof (Z.mod_pos_bound (a / pw i) B ltac:(lia)) as Hd. fold d in Hd.
  pose proof (Z.mod_pos_bound a (pw i) PP) as HM. pose proof (bins_val_bound lo Dl) as HL. rewrite Hlo in HL.
  assert (bi = d /\ bins_val lo = a mod pw i /\ bins_val hi = A / X) as (Ebi & Elo & Ehi).
  { apply (mid_digit (pw i) (A / X) d bi (bins_val hi) (a mod pw i)); auto. unfold partly in Pb. fold A in Pb. rewrite A4, pw_S in Pb. rewrite Ebs, bins_val_app, Hlo in Pb. cbn [bins_val] in Pb. exact Pb. }
  destruct (set_first cur rem bi Cc Nc Vc ltac:(lia) Hbi) as [cb [E1 [W1 [T1 V1]]]]. rewrite E1. cbn [bind]. eapply r_just; [reflexivity|]. set (cu := mkInt cb (negative cur)) in *.
  assert (Nu : nonneg cu) by exact Nc. assert (Vu : aval cu = B * rem + bi) by exact V1.
  assert (Part : forall e, e = (B * rem + d) / X -> partly a X i (lo ++ e :: hi)).
  { intros e ->. unfold partly. rewrite bins_val_app, Hlo. cbn [bins_val]. rewrite Elo, Ehi, A2. ring. }
  assert (Len : forall e : Z, (length (lo ++ e :: hi) <= n)%nat) by (intros e; rewrite Ebs in Lb; rewrite app_length in *; exact Lb).
  assert (Ne : forall e : Z, lo ++ e :: hi <> []) by (intros e He; destruct lo; discriminate).
  assert (L0 : quotient_left (mkInt bs (negative x))).
  { destruct Hs as [Hs|Hs]; [right|left; exact Hs]. cbn [negative bins]. splits; auto; [split; [exact Nb|rewrite Ebs; apply Forall_app; auto]|]. exists (S i). auto. }
  rewrite cmp_bins_spec by assumption. fold X. destruct (Z.leb_spec (Z.sgn (X - aval cu)) 0).
  - destruct (quotient_and_remainder_ok cu xn r) as [r1 [E2 [C2 [N2 V2]]]]; auto; try (fold X; nia).
    rewrite E2. cbn [bind fst snd]. fold X in V2. fold X. rewrite Vu, Ebi in *.
    assert (0 < (B * rem + d) / X < B) by (split; [apply Z.div_str_pos; lia|apply Z.div_lt_upper_bound; nia]).
    replace (negb ((B * rem + d) / X =? 0)) with true by lia. cbn [assert_ bind]. rewrite Es. cbn [bind].
    set (bs' := lo ++ (B * rem + d) / X :: hi).
    assert (L1 : quotient_left (mkInt bs' (negative x))).
    { right. splits; auto. - split; [apply Ne|]. apply Forall_app. split; auto. constructor; [unfold digit_ok; lia|auto]. - apply Len. - exists i. split; [lia|]. apply Part. reflexivity. }
    destruct (next_current r1 ltac:(auto) ltac:(auto) N2) as (C3 & N3 & V3).
    eapply (r_bind _ _ _ _ _ (fun z m => z = mkInt bs' (negative x) /\ m = Ok (r1, r1))).
    + eapply r_may; [exact L0|reflexivity|]. cbn [fst snd]. fold X. replace (negb (_ =? 0)) with true by (rewrite ?Vu, ?Ebi; lia). eapply r_just; [reflexivity|].
      eapply r_just; [apply Es|]. fold bs'. eapply (r_bind _ _ _ _ _ (gives (mkInt bs' (negative x)))); [apply r_here, r_end_put|]. intros z m [-> ->].
      intros j. unfold may. destruct (fails j); [exact L1|split; reflexivity].
    + intros z m [-> ->]. cbn [snd fst]. apply (r_may _ _ _ _ _ (clean_bins (Int_shifted r1 1))); [exact L1|reflexivity|].
      apply IH; auto; try lia.
      * apply Forall_app. split; auto. constructor; [unfold digit_ok; lia|auto].
      * apply Ne.
      * apply Len.
      * apply Part. reflexivity.
  - rewrite Es. cbn [bind]. set (bs' := lo ++ 0 :: hi).
    assert (Db' : Forall digit_ok bs') by (apply Forall_app; split; auto; constructor; [unfold digit_ok; lia|auto]).
    destruct (clean_list_spec bs' Db' (Ne 0)) as (j & El & Tl & Dl' & Vl).
    assert (Small : 0 = (B * rem + d) / X) by (symmetry; apply Z.div_small; lia).
    assert (Nl : clean_list bs' <> []) by apply Tl.
    assert (Ll : (length (clean_list bs') <= n)%nat) by (pose proof (Len 0) as G; fold bs' in G; rewrite El, app_length in G; lia).
    assert (Pl : partly a X i (clean_list bs')) by (unfold partly; rewrite Vl; apply Part; exact Small).
    assert (L1 : quotient_left (mkInt (clean_list bs') (negative x))) by (right; splits; auto; [split; auto|exists i; split; [lia|exact Pl]]).
    destruct (next_current cu W1 T1 Nu) as (C3 & N3 & V3).
    eapply (r_bind _ _ _ _ _ (fun z m => z = mkInt (clean_list bs') (negative x) /\ m = Ok (r, cu))).
    + eapply r_just; [reflexivity|]. fold bs'. eapply (r_bind _ _ _ _ _ (gives (mkInt (clean_list bs') (negative x)))); [apply r_here, r_end_put|]. intros z m [-> ->]. intros q. split; reflexivity.
    + intros z m [-> ->]. cbn [snd fst]. apply (r_may _ _ _ _ _ (clean_bins (Int_shifted cu 1))); [exact L1|reflexivity|].
      apply IH; auto; try lia. rewrite V3, A3, Vu, Ebi. rewrite Z.mod_small by lia. reflexivity.
Qed.
End Quotient.
Lemma division_ends x o : let y := rd x o in wf x -> wf y ->
  ends (div_assign_m fails o) (div_assign x o) (left_by_division x y) x.
Proof.
  intros y Wx Wy. unfold div_assign. fold y.
  assert (R : runs (div_assign_m fails o) x (fun z m => m = (_ <- divide x y ;; Ok tt) /\ match divide x y with Ok r => z = r | Throw _ => z = x | _ => True end) (left_by_division x y)); [|exact R].
  assert (L0 : left_by_division x y x) by (left; reflexivity).
  apply r_here. fold y. apply (r_may _ _ _ _ _ y); auto. apply r_here. unfold divide. rewrite equals_int32_0 by assumption. cbn [bind]. eapply r_just; [reflexivity|].
  pose proof (abs_val x Wx) as Ax. pose proof (abs_val y Wy) as Ay. pose proof (aval_nonneg y Wy).
  destruct (Z.eqb_spec (aval y) 0) as [Ey|Ey]; [intros j; cbn; auto|].
  rewrite cmp_bins_spec by assumption. destruct (Z.ltb_spec (Z.sgn (aval x - aval y)) 0).
  - apply r_here, r_put. eapply r_may; [|reflexivity|intros j; cbn; auto]. right. left. split; [lia|reflexivity].
  - assert (exists xn, (if negative y then op_neg y else Ok y) = Ok xn /\ wf xn /\ nonneg xn /\ aval xn = aval y) as [xn [E1 [W1 [N1 V1]]]].
    { destruct (negative y) eqn:Ny.
      - destruct (op_neg_nonneg y Wy Ny) as [r [E [W [N [V Bb]]]]]. exists r. splits; auto. apply aval_bins; assumption.
      - exists y. splits; auto. }
    rewrite E1. cbn [bind]. eapply r_may; [exact L0|reflexivity|].
    assert (Ex : mkInt (bins x) (negative x) = x) by (destruct x; reflexivity).
    pose proof (bins_val_bound (bins x) (proj2 Wx)) as Bx. fold (size x) in Bx. fold (aval x) in Bx.
    assert (Z0 : aval x / pw (size x) = 0) by (apply Z.div_small; exact Bx).
    pose proof (r_div_loop xn x W1 N1 ltac:(lia) (size x) (bins x) Int_default Int_default) as G. rewrite Ex in G.
    eapply (r_bind _ _ _ _ _ (as_div_loop xn x (size x) (bins x) Int_default Int_default)).
    + eapply r_weak; [apply G; auto|auto|].
      * apply Wx.
      * apply Wx.
      * unfold partly. rewrite Z0, Z.mod_small by exact Bx. rewrite Z.div_0_l by lia. fold (aval x). lia.
      * apply Int_default_canonical.
      * reflexivity.
      * rewrite Z0, Z.mod_0_l by lia. reflexivity.
      * intros z [->|(Wz & Nz & Sz & i & Hi & Pz)]; [exact L0|]. right. right. rewrite Ax, Ay. splits; auto; [lia|lia|]. exists (Z.of_nat i). split; [unfold size in Hi; lia|].
        rewrite (abs_val z Wz). unfold partly in Pz. rewrite V1 in Pz. exact Pz.
    + intros z m [-> Q]. destruct (div_loop _ _ _ _ _) as [bs'|e| | |]; cbn [bind stopped] in *; auto; [|contradiction]. subst z. apply r_here. cbn [bins negative]. intros j. cbn. auto.
Qed.
(** *** The results that are local objects first *)
Lemma result_ends s m (f : Int -> Int) : ends (r <! may fails m ;; swap_m fails half (f r)) (r <- m ;; Ok (f r)) (fun z => z = s \/ exists r, m = Ok r /\ left_by_result half s (f r) z) s.
Proof.
  assert (R : runs (r <! may fails m ;; swap_m fails half (f r)) s (fun z e => e = (_ <- (r <- m ;; Ok (f r)) ;; Ok tt) /\ match (r <- m ;; Ok (f r)) with Ok r => z = r | Throw _ => z = s | _ => True end)
     (fun z => z = s \/ exists r, m = Ok r /\ left_by_result half s (f r) z)); [|exact R].
  destruct m as [r|e| | |] eqn:E; [|apply r_may_stop; [auto|discriminate|cbn; auto]..].
  eapply (r_may _ _ _ _ _ r); [auto|reflexivity|]. eapply r_weak; [apply (r_swap (f r) s (left_by_result half s (f r))); unfold left_by_result; auto| |].
  - intros z e [-> ->]. cbn. auto.
  - intros z K. right. exists r. auto.
Qed.
End Runs.

Lemma mul_ends fails half x o : ends (mul_assign_m fails half o) (mul_assign x o) (fun z => z = x \/ exists r, mul_assign x o = Ok r /\ left_by_result half x r z) x.
Proof.
  set (f := fun r : Int => mkInt (bins r) (xorb (negative x) (negative (rd x o)))).
  pose proof (result_ends fails half x (multiply x (rd x o)) f) as R. intros n. specialize (R n). unfold mul_assign. fold f.
  change (mul_assign_m fails half o x n) with ((r <! may fails (multiply x (rd x o)) ;; swap_m fails half (f r)) x n). fold f in R.
  destruct ((r <! may fails (multiply x (rd x o));; swap_m fails half (f r)) x n) as [[z j] [m|]]; [exact R|].
  destruct R as [R|(r & E & R)]; [left; exact R|right]. exists (f r). rewrite E. split; [reflexivity|exact R].
Qed.
Lemma id_ends fails half x m : ends (r <! may fails m ;; swap_m fails half r) m (fun z => z = x \/ exists r, m = Ok r /\ left_by_result half x r z) x.
Proof.
  pose proof (result_ends fails half x m (fun r => r)) as R. cbv beta in R. assert (E : (r <- m ;; Ok r) = m) by (destruct m; reflexivity). rewrite E in R. exact R.
Qed.
Lemma mod_ends fails half x o : ends (mod_assign_m fails half o) (mod_assign x o) (fun z => z = x \/ exists r, mod_assign x o = Ok r /\ left_by_result half x r z) x.
Proof. exact (id_ends fails half x (modulo x (rd x o))). Qed.
Lemma pow_ends fails half x o : ends (pow_assign_m fails half o) (pow_assign x o) (fun z => z = x \/ exists r, pow_assign x o = Ok r /\ left_by_result half x r z) x.
Proof. exact (id_ends fails half x (op_pow x (rd x o))). Qed.

(** *** What is left is a number *)
Lemma half_gnu_wf x r s : wf x -> wf r -> wf (mkInt (half_gnu (bins x) (bins r)) s).
Proof.
  intros [Nx _] [Nr Dr]. unfold half_gnu. split; cbn [bins].
  - destruct (bins x); [congruence|]. destruct (bins r); [congruence|]. discriminate.
  - rewrite Forall_forall in *. intros v Hv. apply Dr. rewrite <- (firstn_skipn (length (bins x)) (bins r)). apply in_or_app. left. exact Hv.
Qed.
Lemma left_by_result_wf x r z : wf x -> wf r -> left_by_result half_gnu x r z -> wf z.
Proof. intros Wx Wr [ -> | [ -> | -> ] ]; auto. apply half_gnu_wf; auto. Qed.
Lemma left_by_sum_wf adds x y z : canonical x -> left_by_sum half_gnu adds x y z -> wf z.
Proof.
  intros Cx [ -> | [ [_ ->] | H ] ]; auto; [split; apply (canonical_wf x Cx)|]. destruct adds.
  - destruct H as (k & _ & _ & W & _). exact W.
  - destruct H as (_ & [[C _]|(r & [C _] & ->)]); auto. apply half_gnu_wf; auto.
Qed.
Lemma left_by_division_wf x y z : canonical x -> Z.abs (val y) <= Z.abs (val x) -> left_by_division x y z -> wf z.
Proof. intros Cx H [->|[[L _]|(_ & _ & W & _)]]; auto; lia. Qed.
