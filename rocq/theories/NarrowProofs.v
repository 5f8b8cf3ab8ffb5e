(** Reading, comparing, printing and dividing with sizes kept in variables of type int. *)
From Coq Require Import Ascii String ZifyBool Znumtheory.
From Verif Require Import Base IntModel IntSpec IntBasics IntAddSub IntMul IntDiv IntMod IOModel IOSpec IOProofs FracModel NarrowModel NarrowSpec.
Import ListNotations.
Local Open Scope list_scope.
Local Open Scope Z_scope.

Section Width.
Variable w : Z.
Hypothesis Hw : 8 <= w <= 63.
Local Notation half := (2 ^ (w - 1)).
Local Notation narrow := (narrow w).
Local Notation from_back := (from_back w).

Lemma two_half : 2 ^ w = 2 * half.
Proof. replace w with (Z.succ (w - 1)) at 1 by lia. rewrite Z.pow_succ_r; lia. Qed.
Lemma half_range : 128 <= half <= 2 ^ 62.
Proof. split; [change 128 with (2 ^ 7)|]; apply Z.pow_le_mono_r; lia. Qed.
Lemma big : 2 ^ 64 = 4 * 2 ^ 62 /\ 2 ^ 63 = 2 * 2 ^ 62 /\ 2 ^ 62 = 4611686018427387904.
Proof. repeat split. Qed.
Lemma becomes_narrow d r : becomes w d r -> narrow d = r.
Proof.
  intros [H [k E]]. unfold NarrowModel.narrow. pose proof two_half. pose proof half_range.
  replace (d + half) with (r + half + k * 2 ^ w) by lia. rewrite Z.mod_add by lia. rewrite Z.mod_small; lia.
Qed.
Lemma narrow_becomes d : becomes w d (narrow d).
Proof.
  unfold becomes, NarrowModel.narrow. pose proof two_half. pose proof half_range.
  pose proof (Z.mod_pos_bound (d + half) (2 ^ w)). split; [lia|]. exists ((d + half) / 2 ^ w). pose proof (Z.div_mod (d + half) (2 ^ w)). lia.
Qed.
Lemma narrow_small z : - half <= z < half -> narrow z = z.
Proof. intros H. apply becomes_narrow. split; [exact H|]. exists 0. lia. Qed.
Lemma narrow_range z : - half <= narrow z < half.
Proof. apply narrow_becomes. Qed.
Lemma narrow_size z : narrow (size64 z) = narrow z.
Proof.
  apply becomes_narrow. destruct (narrow_becomes z) as [H [k E]]. split; [exact H|]. unfold size64.
  exists (k - z / 2 ^ 64 * 2 ^ (64 - w)). rewrite Z.mul_sub_distr_r. rewrite <- Z.mul_assoc, <- Z.pow_add_r by lia. replace (64 - w + w) with 64 by lia.
  pose proof (Z.div_mod z (2 ^ 64) ltac:(lia)). lia.
Qed.
Lemma narrow_neg z : narrow z <> - half -> narrow (- z) = - narrow z.
Proof. intros N. apply becomes_narrow. destruct (narrow_becomes z) as [H [k E]]. split; [lia|]. exists (- k). lia. Qed.
Lemma narrow_min z : narrow z = - half -> narrow (- z) = - half.
Proof. intros E. apply becomes_narrow. destruct (narrow_becomes z) as [H [k K]]. pose proof two_half. pose proof half_range. split; [lia|]. exists (- k + 1). lia. Qed.
Lemma int_fits z : - half <= z < half -> int_ w z = Ok z.
Proof. intros H. unfold int_. replace ((- half <=? z) && (z <? half)) with true by lia. reflexivity. Qed.

(** *** Access from the back *)
Lemma zlen_nonneg {A} (l : list A) : 0 <= zlen l.
Proof. unfold zlen. lia. Qed.
Lemma nth_rev_back (l : list Z) i : (i < length l)%nat -> nth_error l (length l - S i) = Some (nth i (rev l) 0).
Proof. intros H. rewrite rev_nth by exact H. apply nth_error_nth'. lia. Qed.
Lemma from_back_in l i : 0 <= i < zlen l -> i < half -> zlen l < 2 ^ 63 -> from_back l i = Ok (nth (Z.to_nat i) (rev l) 0).
Proof.
  intros H1 H2 H3. unfold NarrowModel.from_back, at64, size64. pose proof half_range. pose proof big. rewrite narrow_small by lia. rewrite Z.mod_small by lia.
  replace (zlen l - 1 - i <? zlen l) with true by lia. unfold at_. unfold zlen in *.
  replace (Z.to_nat (Z.of_nat (length l) - 1 - i)) with (length l - S (Z.to_nat i))%nat by lia. rewrite nth_rev_back by lia. reflexivity.
Qed.
Lemma from_back_out l i : zlen l < 2 ^ 63 -> (narrow i < 0 \/ zlen l <= narrow i) -> from_back l i = Throw OutOfRange.
Proof.
  intros H1 H2. unfold NarrowModel.from_back, at64, size64. pose proof half_range. pose proof big. pose proof (narrow_range i). pose proof (zlen_nonneg l).
  destruct H2 as [H2|H2].
  - rewrite Z.mod_small by lia. replace (zlen l - 1 - narrow i <? zlen l) with false by lia. reflexivity.
  - replace ((zlen l - 1 - narrow i) mod 2 ^ 64) with (zlen l - 1 - narrow i + 2 ^ 64).
    + replace (zlen l - 1 - narrow i + 2 ^ 64 <? zlen l) with false by lia. reflexivity.
    + apply Z.mod_unique with (q := -1); lia.
Qed.

(** *** Comparing *)
Lemma skipn_nth_cons (r : list Z) i : (i < length r)%nat -> skipn i r = nth i r 0 :: skipn (S i) r.
Proof. revert i. induction r as [|b r IH]; intros [|i] H; cbn in *; try lia; [reflexivity|]. apply IH. lia. Qed.
Lemma any_nonzero_ok l : zlen l < 2 ^ 63 -> forall n i, (i + n <= length l)%nat -> Z.of_nat (i + n) <= half ->
  any_nonzero w n (Z.of_nat i) l = Ok (existsb (fun b => negb (b =? 0)) (firstn n (skipn i (rev l)))).
Proof.
  intros L. induction n as [|n IH]; intros i H1 H2; cbn [any_nonzero]; [reflexivity|].
  rewrite from_back_in by (unfold zlen in *; lia). rewrite Nat2Z.id. cbn [bind].
  rewrite (skipn_nth_cons (rev l) i) by (rewrite rev_length; lia). cbn [firstn existsb].
  destruct (nth i (rev l) 0 =? 0); [|reflexivity]. replace (Z.of_nat i + 1) with (Z.of_nat (S i)) by lia. cbn [negb orb]. apply IH; lia.
Qed.
Lemma cmp_loop_ok a b o : zlen a < 2 ^ 63 -> zlen b < 2 ^ 63 -> (length b = o + length a)%nat -> Z.of_nat (length b) <= half -> forall n i, (i + n = length a)%nat ->
  cmp_loop_n w n (Z.of_nat i) (Z.of_nat o) a b = Ok (cmp_loop (skipn i (rev a)) (skipn (o + i) (rev b))).
Proof.
  intros La Lb E Hb. pose proof half_range. pose proof big. induction n as [|n IH]; intros i Hi; cbn [cmp_loop_n].
  - rewrite skipn_all2 by (rewrite rev_length; lia). reflexivity.
  - rewrite from_back_in by (unfold zlen in *; lia). rewrite Nat2Z.id. cbn [bind].
    replace (size64 (Z.of_nat o + Z.of_nat i)) with (Z.of_nat (o + i)) by (unfold size64; rewrite Z.mod_small; lia).
    rewrite from_back_in by (unfold zlen in *; lia). rewrite Nat2Z.id. cbn [bind].
    rewrite (skipn_nth_cons (rev a) i) by (rewrite rev_length; lia). rewrite (skipn_nth_cons (rev b) (o + i)) by (rewrite rev_length; lia). cbn [cmp_loop].
    destruct (cmp_ints _ _ =? 0); [|reflexivity]. replace (Z.of_nat i + 1) with (Z.of_nat (S i)) by lia. rewrite IH by lia. replace (o + S i)%nat with (S (o + i)) by lia. reflexivity.
Qed.
Lemma cmp_bins_le_n f x y : (size x <= size y)%nat -> zlen (bins y) - zlen (bins x) < half -> zlen (bins y) <= half -> cmp_bins_n w (S f) x y = Ok (cmp_bins_le x y).
Proof.
  intros H1 H0 H2. pose proof half_range. pose proof big. unfold size in *. cbn [cmp_bins_n].
  rewrite narrow_size, narrow_small by (unfold zlen in *; lia).
  replace (zlen (bins y) - zlen (bins x) <? 0) with false by (unfold zlen; lia).
  replace (Z.to_nat (zlen (bins y) - zlen (bins x))) with (length (bins y) - length (bins x))%nat by (unfold zlen; lia).
  replace (zlen (bins y) - zlen (bins x)) with (Z.of_nat (length (bins y) - length (bins x))) by (unfold zlen; lia).
  change 0 with (Z.of_nat 0). rewrite any_nonzero_ok by (unfold zlen in *; lia). cbn [bind skipn].
  unfold cmp_bins_le, size. destruct (existsb _ _); [reflexivity|].
  rewrite cmp_loop_ok by (unfold zlen in *; lia). rewrite Nat.add_0_r. reflexivity.
Qed.
Theorem cmp_bins_same f x y : bins x <> [] -> bins y <> [] -> zlen (bins x) <= half -> zlen (bins y) <= half -> cmp_bins_n w (S (S f)) x y = Ok (cmp_bins x y).
Proof.
  intros Nx Ny Hx Hy. pose proof half_range. unfold cmp_bins.
  assert (0 < zlen (bins x)) by (destruct (bins x); [contradiction|unfold zlen; cbn [length]; lia]).
  assert (0 < zlen (bins y)) by (destruct (bins y); [contradiction|unfold zlen; cbn [length]; lia]).
  destruct (size y <? size x)%nat eqn:E.
  - apply Nat.ltb_lt in E. unfold size in E. change (cmp_bins_n w (S (S f)) x y) with
      (let offset := narrow (size64 (zlen (bins y) - zlen (bins x))) in
       if offset <? 0 then c <- cmp_bins_n w (S f) y x ;; Ok (- c)
       else z <- any_nonzero w (Z.to_nat offset) 0 (bins y) ;; if z : bool then Ok (-1) else cmp_loop_n w (size x) 0 offset (bins x) (bins y)).
    cbv zeta. rewrite narrow_size, narrow_small by (unfold zlen in *; lia). replace (zlen (bins y) - zlen (bins x) <? 0) with true by (unfold zlen; lia).
    rewrite cmp_bins_le_n by (unfold size, zlen in *; lia). reflexivity.
  - apply Nat.ltb_ge in E. apply cmp_bins_le_n; unfold size, zlen in *; lia.
Qed.
Theorem cmp_same f x y : bins x <> [] -> bins y <> [] -> zlen (bins x) <= half -> zlen (bins y) <= half -> cmp_n w (S (S f)) x y = cmp x y.
Proof. intros Nx Ny Hx Hy. unfold cmp_n, cmp. rewrite cmp_bins_same by assumption. reflexivity. Qed.

(** beyond: the sign of the wrapped difference of the lengths decides *)
Lemma first_bin l : trimmed l -> bins_val l <> 0 -> zlen l < 2 ^ 63 -> exists b, from_back l 0 = Ok b /\ b <> 0.
Proof.
  intros [N T] V L. pose proof half_range. assert (0 < length l)%nat by (destruct l; [contradiction|cbn; lia]).
  exists (nth 0 (rev l) 0). split; [apply (from_back_in l 0); unfold zlen in *; lia|]. rewrite <- (rev_involutive l) in T, V. rewrite <- rev_length in T, H0.
  destruct (rev l) as [|b r]; [cbn in H0; lia|]. cbn [nth]. cbn [rev] in T, V. rewrite last_last in T.
  destruct r as [|c r]; [cbn in V; lia|]. apply T. rewrite rev_length, app_length, rev_length. cbn [length]. lia.
Qed.

Lemma cmp_unfold f x y : cmp_bins_n w (S f) x y =
  (if narrow (zlen (bins y) - zlen (bins x)) <? 0 then c <- cmp_bins_n w f y x ;; Ok (- c)
   else z <- any_nonzero w (Z.to_nat (narrow (zlen (bins y) - zlen (bins x)))) 0 (bins y) ;;
        if z : bool then Ok (-1) else cmp_loop_n w (size x) 0 (narrow (zlen (bins y) - zlen (bins x))) (bins x) (bins y)).
Proof. cbn [cmp_bins_n]. rewrite narrow_size. reflexivity. Qed.

(** x, y of any lengths, both without redundant bins and neither zero *)
Lemma cmp_pos f x y o : big_number y -> becomes w (zlen (bins y) - zlen (bins x)) o -> 0 < o -> cmp_bins_n w (S f) x y = Ok (-1).
Proof.
  intros (T & V & L) W H. rewrite cmp_unfold, (becomes_narrow _ _ W). replace (o <? 0) with false by lia.
  destruct (first_bin _ T V L) as (b & E & N). destruct (Z.to_nat o) as [|n] eqn:En; [lia|]. cbn [any_nonzero]. rewrite E. cbn [bind]. replace (b =? 0) with false by lia. reflexivity.
Qed.
Lemma cmp_neg f x y o : big_number x -> becomes w (zlen (bins y) - zlen (bins x)) o -> o < 0 -> o <> - half -> cmp_bins_n w (S (S f)) x y = Ok 1.
Proof.
  intros G W H M. rewrite cmp_unfold, (becomes_narrow _ _ W). replace (o <? 0) with true by lia.
  rewrite (cmp_pos f y x (- o)); [reflexivity|exact G| |lia]. destruct W as [Wr [k Wk]]. split; [lia|]. exists (- k). lia.
Qed.
Lemma cmp_endless fuel : forall x y, becomes w (zlen (bins y) - zlen (bins x)) (- half) -> cmp_bins_n w fuel x y = OutOfFuel.
Proof.
  pose proof half_range. pose proof two_half. induction fuel as [|f IH]; intros x y W; [reflexivity|].
  rewrite cmp_unfold, (becomes_narrow _ _ W). replace (- half <? 0) with true by lia. rewrite IH; [reflexivity|].
  destruct W as [Wr [k Wk]]. split; [lia|]. exists (1 - k). lia.
Qed.
Lemma cmp_zero f x o : zlen (bins x) < 2 ^ 63 -> bins x <> [] -> becomes w (1 - zlen (bins x)) o -> 0 < o ->
  cmp_bins_n w (S f) x (mkInt [0] false) = Throw OutOfRange /\ cmp_bins_n w (S (S f)) (mkInt [0] false) x = Throw OutOfRange.
Proof.
  intros L N W H. pose proof half_range. pose proof two_half. assert (Z0 : from_back [0] 0 = Ok 0) by (apply (from_back_in [0] 0); [cbn; lia|lia|reflexivity]).
  assert (OUT : forall i, 1 <= i < half -> from_back [0] i = Throw OutOfRange). { intros i Hi. apply from_back_out; [reflexivity|]. right. rewrite narrow_small by lia. exact (proj1 Hi). }
  assert (Oh : o < half) by apply W. assert (Hs : 0 < zlen (bins x)) by (destruct (bins x); [contradiction|unfold zlen; cbn [length]; lia]).
  assert (G : forall g, cmp_bins_n w (S g) x (mkInt [0] false) = Throw OutOfRange).
  { intros g. rewrite cmp_unfold. cbn [bins]. change (zlen [0]) with 1. rewrite (becomes_narrow _ _ W). replace (o <? 0) with false by lia.
    destruct (Z.to_nat o) as [|[|n]] eqn:En; [lia| |].
    - replace o with 1 by lia. cbn [any_nonzero]. rewrite Z0. cbn [bind Z.eqb]. unfold size. destruct (length (bins x)) as [|m] eqn:Em; [unfold zlen in Hs; lia|]. cbn [cmp_loop_n].
      rewrite (from_back_in (bins x) 0) by lia. cbn [bind]. change (size64 (1 + 0)) with 1. rewrite OUT by lia. reflexivity.
    - cbn [any_nonzero]. rewrite Z0. cbn [bind Z.eqb]. rewrite OUT by lia. reflexivity. }
  split; [apply G|]. rewrite cmp_unfold. cbn [bins]. change (zlen [0]) with 1. rewrite (becomes_narrow _ (- o)); [|destruct W as [Wr [k Wk]]; split; [lia|exists (- k); lia]].
  replace (- o <? 0) with true by lia. rewrite G. reflexivity.
Qed.
(** *** equal lengths modulo 2^w: the bins are compared from the top *)
Local Notation reachable := (reachable w).
Lemma cmp_equal_unfold f x y : becomes w (zlen (bins y) - zlen (bins x)) 0 -> cmp_bins_n w (S f) x y = cmp_loop_n w (size x) 0 0 (bins x) (bins y).
Proof. intros W. rewrite cmp_unfold, (becomes_narrow _ _ W). reflexivity. Qed.
Lemma loop_step x y n i : zlen (bins x) < 2 ^ 63 -> zlen (bins y) < 2 ^ 63 -> reachable x y i ->
  cmp_loop_n w (S n) (Z.of_nat i) 0 (bins x) (bins y) =
  (if cmp_ints (from_top x i) (from_top y i) =? 0 then cmp_loop_n w n (Z.of_nat (S i)) 0 (bins x) (bins y) else Ok (cmp_ints (from_top x i) (from_top y i))).
Proof.
  intros Lx Ly (H1 & H2 & H3). pose proof half_range. pose proof big. unfold size in *. cbn [cmp_loop_n].
  replace (size64 (0 + Z.of_nat i)) with (Z.of_nat i) by (unfold size64; rewrite Z.mod_small; lia).
  rewrite !from_back_in by (unfold zlen in *; lia). cbn [bind]. rewrite Nat2Z.id. replace (Z.of_nat i + 1) with (Z.of_nat (S i)) by lia. reflexivity.
Qed.
Lemma cmp_ints_spec a b : cmp_ints a b = (if a <? b then -1 else if b <? a then 1 else 0).
Proof. unfold cmp_ints. destruct (a <? b) eqn:E1, (b <? a) eqn:E2; try lia; repeat match goal with |- context [if ?c then _ else _] => destruct c eqn:? end; lia. Qed.
Lemma loop_prefix x y : zlen (bins x) < 2 ^ 63 -> zlen (bins y) < 2 ^ 63 -> forall m n i,
  (forall j, (i <= j < i + m)%nat -> reachable x y j /\ from_top x j = from_top y j) ->
  cmp_loop_n w (m + n) (Z.of_nat i) 0 (bins x) (bins y) = cmp_loop_n w n (Z.of_nat (i + m)) 0 (bins x) (bins y).
Proof.
  intros Lx Ly. induction m as [|m IH]; intros n i H; [rewrite Nat.add_0_r; reflexivity|].
  destruct (H i ltac:(lia)) as [R E]. change (S m + n)%nat with (S (m + n)). rewrite loop_step by assumption. rewrite E, cmp_ints_spec, Z.ltb_irrefl. cbn [Z.eqb].
  rewrite IH by (intros j Hj; apply H; lia). f_equal. lia.
Qed.
Lemma cmp_level_diff f x y i : zlen (bins x) < 2 ^ 63 -> zlen (bins y) < 2 ^ 63 -> becomes w (zlen (bins y) - zlen (bins x)) 0 ->
  reachable x y i -> (forall j, (j < i)%nat -> from_top x j = from_top y j) -> from_top x i <> from_top y i ->
  cmp_bins_n w (S f) x y = Ok (if from_top x i <? from_top y i then -1 else 1).
Proof.
  intros Lx Ly W R P D. rewrite cmp_equal_unfold by exact W. destruct R as (R1 & R2 & R3). fold (size x) in R2. fold (size y) in R3.
  replace (size x) with (i + S (size x - S i))%nat by lia. change 0 with (Z.of_nat 0) at 1.
  rewrite loop_prefix; [|assumption|assumption|intros j Hj; split; [split; [|split]; unfold size in *; lia|apply P; lia]].
  cbn [Nat.add]. rewrite loop_step by (first [assumption|split; [|split]; unfold size in *; lia]). rewrite cmp_ints_spec.
  destruct (from_top x i <? from_top y i) eqn:E1; [reflexivity|]. destruct (from_top y i <? from_top x i) eqn:E2; [reflexivity|lia].
Qed.
Lemma cmp_level_same f x y : zlen (bins x) < 2 ^ 63 -> zlen (bins y) < 2 ^ 63 -> becomes w (zlen (bins y) - zlen (bins x)) 0 ->
  (forall j, reachable x y j -> from_top x j = from_top y j) ->
  cmp_bins_n w (S f) x y = if (size x <=? size y)%nat && (zlen (bins x) <=? half) then Ok 0 else Throw OutOfRange.
Proof.
  intros Lx Ly W P. rewrite cmp_equal_unfold by exact W. pose proof half_range as HR. pose proof big as HB.
  destruct ((size x <=? size y)%nat && (zlen (bins x) <=? half)) eqn:E.
  - apply andb_true_iff in E as [E1 E2]. apply Nat.leb_le in E1. unfold zlen in E2. unfold size in *.
    replace (length (bins x)) with (length (bins x) + 0)%nat at 1 by lia. change 0 with (Z.of_nat 0) at 1.
    rewrite loop_prefix; [reflexivity|assumption|assumption|]. intros j Hj. assert (R : reachable x y j) by (split; [|split]; unfold size; lia). split; [exact R|apply P, R].
  - set (m := Nat.min (size y) (Z.to_nat half)).
    assert (M : (m < size x)%nat). { unfold m, size, zlen in *. lia. }
    replace (size x) with (m + S (size x - S m))%nat by lia. change 0 with (Z.of_nat 0) at 1.
    rewrite loop_prefix; [|assumption|assumption|intros j Hj; assert (R : reachable x y j) by (unfold m, size in *; split; [|split]; lia); split; [exact R|apply P, R]].
    cbn [Nat.add cmp_loop_n]. replace (size64 (0 + Z.of_nat m)) with (Z.of_nat m) by (unfold size64; rewrite Z.mod_small; unfold m, size, zlen in *; lia).
    destruct (Z_lt_le_dec (Z.of_nat m) half) as [Hm|Hm].
    + rewrite (from_back_in (bins x)) by (unfold size, zlen in *; lia). cbn [bind].
      rewrite from_back_out; [reflexivity|assumption|]. right. rewrite narrow_small by lia. unfold m, size, zlen in *. lia.
    + assert (Em : Z.of_nat m = half) by (unfold m in *; lia).
      rewrite (from_back_out (bins x)); [reflexivity|assumption|]. left. rewrite Em. replace (narrow half) with (- half); [lia|].
      symmetry. apply becomes_narrow. pose proof two_half. split; [lia|]. exists 1. lia.
Qed.
End Width.
