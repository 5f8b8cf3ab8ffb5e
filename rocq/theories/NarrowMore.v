(** Printing, dividing and Frac(string) with sizes and positions in ints. *)
From Coq Require Import Ascii String ZifyBool Znumtheory.
From Verif Require Import Base IntModel IntSpec IntBasics IntAddSub IntMul IntDiv IntMod IOModel IOSpec IOProofs FracModel NarrowModel NarrowSpec NarrowProofs NarrowRead.
Import ListNotations.
Local Open Scope list_scope.
Local Open Scope Z_scope.

Section Width.
Variable w : Z.
Hypothesis Hw : 8 <= w <= 63.
Local Notation half := (2 ^ (w - 1)).
Local Notation narrow := (narrow w).

(** *** Printing *)
Lemma skip_bins_ok l : zlen l < 2 ^ 63 -> zlen l <= half -> forall n i, (i + n = length l)%nat ->
  exists j, skip_bins w n (Z.of_nat i) l = Ok (Z.of_nat j) /\ (i <= j <= length l)%nat /\ skip_zero_bins (skipn i (rev l)) = skipn j (rev l).
Proof using Hw.
  intros L H. induction n as [|n IH]; intros i E; cbn [skip_bins].
  - exists i. split; [reflexivity|]. split; [lia|]. rewrite skipn_all2 by (rewrite rev_length; lia). reflexivity.
  - rewrite (from_back_in w Hw) by (unfold zlen in *; lia). cbn [bind]. rewrite Nat2Z.id. rewrite (skipn_nth_cons (rev l) i) by (rewrite rev_length; lia). cbn [skip_zero_bins].
    destruct (nth i (rev l) 0 =? 0).
    + replace (Z.of_nat i + 1) with (Z.of_nat (S i)) by lia. destruct (IH (S i) ltac:(lia)) as (j & E1 & E2 & E3). exists j. split; [exact E1|]. split; [lia|exact E3].
    + exists i. split; [reflexivity|]. split; [lia|]. rewrite (skipn_nth_cons (rev l) i) by (rewrite rev_length; lia). reflexivity.
Qed.
Lemma print_rest_ok l : zlen l < 2 ^ 63 -> forall m n i o, (i + m <= length l)%nat -> Z.of_nat (i + m) <= half ->
  print_rest w (m + n) (Z.of_nat i) l o = print_rest w n (Z.of_nat (i + m)) l (print_bins o (firstn m (skipn i (rev l)))).
Proof using Hw.
  intros L. induction m as [|m IH]; intros n i o H1 H2; [rewrite Nat.add_0_r; reflexivity|].
  cbn [Nat.add print_rest]. rewrite (from_back_in w Hw) by (unfold zlen in *; lia). rewrite Nat2Z.id. replace (Z.of_nat i + 1) with (Z.of_nat (S i)) by lia. rewrite IH by lia.
  replace (i + S m)%nat with (S i + m)%nat by lia. rewrite (skipn_nth_cons (rev l) i) by (rewrite rev_length; lia). reflexivity.
Qed.
Theorem Int_print_same o x : zlen (bins x) <= half -> Int_print_n w o x = (Int_print o x, Ok tt).
Proof using Hw.
  intros H. pose proof (half_range w Hw). pose proof big. unfold Int_print_n, Int_print. change 0 with (Z.of_nat 0) at 1.
  destruct (skip_bins_ok (bins x) ltac:(lia) H (size x) 0 eq_refl) as (j & E1 & E2 & E3). rewrite E1. cbn [skipn] in E3. rewrite E3.
  destruct (Nat.eq_dec j (length (bins x))) as [->|N].
  - replace (Z.of_nat (length (bins x)) =? zlen (bins x)) with true by (unfold zlen; lia). rewrite skipn_all2 by (rewrite rev_length; lia). reflexivity.
  - replace (Z.of_nat j =? zlen (bins x)) with false by (unfold zlen; lia). rewrite (from_back_in w Hw) by (unfold zlen in *; lia). rewrite Nat2Z.id.
    rewrite (skipn_nth_cons (rev (bins x)) j) by (rewrite rev_length; lia). replace (Z.of_nat j + 1) with (Z.of_nat (S j)) by lia. unfold size.
    replace (length (bins x) - S j)%nat with (length (bins x) - S j + 0)%nat by lia. rewrite print_rest_ok by (unfold zlen in *; lia). cbn [print_rest].
    rewrite firstn_all2 by (rewrite skipn_length, rev_length; lia). reflexivity.
Qed.
Lemma skipn_val l : forall n, Forall digit_ok l -> bins_val (skipn n l) = bins_val l / pw n.
Proof.
  induction l as [|b l IH]; intros [|n] H; cbn [skipn bins_val]; rewrite ?pw_0, ?Z.div_1_r; try reflexivity.
  inversion H; subst. unfold digit_ok in *. rewrite IH by assumption. rewrite pw_S, Z.mul_comm, <- Z.div_div; [|lia|pose proof (pw_pos n); lia].
  rewrite Z.div_add by lia. rewrite (Z.div_small b) by lia. reflexivity.
Qed.
Lemma last_nz_val l : l <> [] -> Forall digit_ok l -> last l 0 <> 0 -> bins_val l <> 0.
Proof.
  intros N D L. destruct (exists_last N) as (l' & b & ->). rewrite last_last in L. apply Forall_app in D as [D1 D2]. inversion D2; subst. unfold digit_ok in *.
  rewrite bins_val_app. cbn [bins_val]. pose proof (pw_pos (length l')). pose proof (bins_val_bound l' D1). nia.
Qed.
Theorem Int_print_long o x : canonical x -> half < zlen (bins x) < 2 ^ 63 -> owidth o = 0 ->
  exists s, canonical_text s (Z.quot (val x) (pw (size x - Z.to_nat half))) /\ obuf (fst (Int_print_n w o x)) = obuf o ++ s /\ snd (Int_print_n w o x) = Throw OutOfRange.
Proof using Hw.
  intros (Wx & Tx & _) [H1 H2] Ho. pose proof (half_range w Hw) as HR. set (H := Z.to_nat half). set (n := size x).
  assert (Hn : (H < n)%nat) by (unfold H, n, size, zlen in *; lia). assert (H0 : (0 < H)%nat) by (unfold H; lia).
  set (y := mkInt (skipn (n - H) (bins x)) (negative x)).
  assert (Rv : rev (bins y) = firstn H (rev (bins x))). { cbn [bins y]. rewrite firstn_rev. do 2 f_equal. }
  assert (Top : nth 0 (rev (bins x)) 0 <> 0).
  { destruct Tx as [_ T]. rewrite <- (rev_involutive (bins x)) in T. unfold n, size in Hn. rewrite <- rev_length in Hn. destruct (rev (bins x)) as [|b r]; [cbn in Hn; lia|]. cbn [nth rev] in *. rewrite last_last in T. apply T. rewrite app_length. rewrite rev_length. cbn [length] in *. lia. }
  assert (Wy : wf y). { split; cbn [bins y]; [|apply Forall_skipn_, Wx]. intros E. apply (f_equal (@length Z)) in E. rewrite skipn_length in E. cbn in E. unfold n, size in *. lia. }
  assert (Vy : val y = Z.quot (val x) (pw (n - H))).
  { unfold val. cbn [negative bins y]. rewrite skipn_val by apply Wx. pose proof (pw_pos (n - H)). pose proof (bins_val_bound (bins x) (proj2 Wx)).
    destruct (negative x); [rewrite Z.quot_opp_l by lia|]; rewrite Z.quot_div_nonneg by lia; reflexivity. }
  assert (Ny : val y <> 0).
  { assert (bins_val (bins y) <> 0); [|unfold val; destruct (negative y); lia]. apply last_nz_val; [apply Wy|apply Wy|].
    rewrite <- (rev_involutive (bins y)), Rv. destruct (rev (bins x)) as [|b r] eqn:Er; [elim Top; reflexivity|]. destruct H as [|h]; [lia|]. cbn [firstn rev nth] in *. rewrite last_last. exact Top. }
  destruct o as [ob ow ofl]. cbn [owidth obuf] in *. subst ow.
  destruct (Int_print_text y ob ofl Wy ltac:(intros E; contradiction)) as (s & Cs & Ps). exists s. rewrite <- Vy. split; [exact Cs|].
  pose proof (from_back_in w Hw (bins x) 0 ltac:(lia) ltac:(lia) H2) as F0. change (Z.to_nat 0) with 0%nat in F0.
  assert (E : Int_print_n w (mkOut ob 0 ofl) x = (setfill ZERO (setw BIN_WIDTH (mkOut (ob ++ s) 0 (if Z.abs (val y) <? B then ofl else ZERO))), Throw OutOfRange)).
  { unfold Int_print_n. fold n. destruct n as [|n'] eqn:En; [lia|]. cbn [skip_bins]. rewrite F0. cbn [bind]. replace (nth 0 (rev (bins x)) 0 =? 0) with false by lia.
    replace (0 =? zlen (bins x)) with false by lia. change (Z.to_nat 0) with 0%nat. replace (S n' - 1)%nat with ((H - 1) + S (n' - H))%nat by lia. change (0 + 1) with (Z.of_nat 1).
    rewrite F0. rewrite print_rest_ok by (unfold n, size in En; unfold H in *; lia). cbn [print_rest].
    rewrite (from_back_out w Hw); [|exact H2|left; replace (Z.of_nat (1 + (H - 1))) with half by lia; replace (narrow half) with (- half); [lia|]].
    2:{ symmetry. apply (becomes_narrow w Hw). pose proof (two_half w Hw). split; [lia|]. exists 1. lia. }
    cbn [bind]. rewrite <- Ps. unfold Int_print. rewrite Rv. cbn [negative y].
    destruct (rev (bins x)) as [|b r] eqn:Er; [elim Top; reflexivity|]. destruct H as [|h]; [lia|]. cbn [firstn nth skip_zero_bins skipn] in *. replace (b =? 0) with false by lia.
    replace (S h - 1)%nat with h by lia. reflexivity. }
  rewrite E. split; reflexivity.
Qed.

(** *** Dividing *)
Theorem divide_same f x y : wf x -> wf y -> zlen (bins x) < half -> zlen (bins y) <= half -> divide_n w (S (S f)) x y = divide x y.
Proof using Hw.
  intros Wx Wy Hx Hy. pose proof (half_range w Hw). unfold divide_n, divide. rewrite equals_int32_0 by assumption. cbn [bind]. destruct (aval y =? 0); [reflexivity|].
  rewrite (cmp_bins_same w Hw) by (first [apply Wx|apply Wy|lia]). cbn [bind]. destruct (cmp_bins x y <? 0); [reflexivity|].
  destruct (if negative y then op_neg y else Ok y); cbn [bind]; try reflexivity.
  assert (0 <= zlen (bins x)) by (unfold zlen; lia). rewrite (narrow_small w Hw) by lia. rewrite (int_fits w) by lia. cbn [bind].
  replace (Z.to_nat (zlen (bins x) - 1 + 1)) with (size x) by (unfold zlen, size; lia). reflexivity.
Qed.
Lemma firstn_val l n : Forall digit_ok l -> bins_val (firstn n l) = bins_val l mod pw n.
Proof.
  intros H. pose proof (pw_pos n). destruct (Nat.le_gt_cases (length l) n) as [L|L].
  - rewrite firstn_all2 by exact L. rewrite Z.mod_small; [reflexivity|]. pose proof (bins_val_bound l H). pose proof (pw_le (length l) n L). lia.
  - rewrite <- (firstn_skipn n l) at 2. rewrite bins_val_app, firstn_length_le by lia. rewrite (Z.mul_comm (pw n)), Z.mod_add by lia. rewrite Z.mod_small; [reflexivity|].
    pose proof (bins_val_bound (firstn n l) (Forall_firstn_ _ _ _ H)). rewrite firstn_length_le in * by lia. lia.
Qed.
Theorem divide_long fuel x y c r : canonical x -> canonical y -> val y <> 0 -> half <= zlen (bins x) ->
  cmp_bins_n w fuel x y = Ok c -> 0 <= c -> becomes w (zlen (bins x)) r ->
  (r = - half -> divide_n w fuel x y = UB) /\
  (r <> - half -> exists q, divide_n w fuel x y = Ok q /\ canonical q /\
     val q = signed (xorb (negative x) (negative y))
       (pw (Z.to_nat r) * (Z.abs (val x) / pw (Z.to_nat r)) + Z.abs (val x) mod pw (Z.to_nat r) / Z.abs (val y))).
Proof using Hw.
  intros (Wx & Tx & _) (Wy & Ty & _) Vy Hx Ec Hc W. pose proof (half_range w Hw) as HR. pose proof (two_half w Hw) as TH. pose proof (abs_val x Wx) as Ax. pose proof (abs_val y Wy) as Ay.
  unfold divide_n. rewrite equals_int32_0 by assumption. cbn [bind]. replace (aval y =? 0) with false by lia. rewrite Ec. cbn [bind]. replace (c <? 0) with false by lia.
  assert (exists xn, (if negative y then op_neg y else Ok y) = Ok xn /\ wf xn /\ nonneg xn /\ aval xn = aval y) as [xn [E1 [W1 [N1 V1]]]].
  { destruct (negative y) eqn:Ny.
    - destruct (op_neg_nonneg y Wy Ny) as [q [E [W' [N [V Bb]]]]]. exists q. splits; auto. apply aval_bins; assumption.
    - exists y. splits; auto. }
  rewrite E1. cbn [bind]. rewrite (becomes_narrow w Hw _ _ W). assert (Hr : - half <= r < half) by apply W. unfold int_. split.
  - intros ->. replace ((- half <=? - half - 1) && (- half - 1 <? half)) with false by lia. reflexivity.
  - intros N. replace ((- half <=? r - 1) && (r - 1 <? half)) with true by lia. cbn [bind]. replace (r - 1 + 1) with r by lia.
    set (k := Z.to_nat r). assert (Hk : (k < length (bins x))%nat) by (unfold k, zlen in *; lia).
    rewrite <- (firstn_skipn k (bins x)).
    assert (NE : skipn k (bins x) <> []). { intros E. apply (f_equal (@length Z)) in E. rewrite skipn_length in E. cbn in E. lia. }
    assert (LZ : last (skipn k (bins x)) 0 <> 0). { destruct Tx as [_ T]. rewrite <- (firstn_skipn k (bins x)) in T. rewrite last_app_ne in T by exact NE. apply T. rewrite firstn_skipn. unfold zlen in *. lia. }
    destruct (div_loop_started xn W1 N1 ltac:(lia) k (firstn k (bins x)) (skipn k (bins x)) Int_default Int_default 0) as (bs & E & D & NB & LB & V).
    { apply firstn_length_le. lia. } { apply Forall_firstn_, Wx. } { apply Forall_skipn_, Wx. } { exact NE. } { exact LZ. } { apply Int_default_canonical. } { reflexivity. } { reflexivity. } { lia. }
    rewrite E. cbn [bind]. eexists. split; [reflexivity|]. rewrite Z.mul_0_l, Z.add_0_l, V1, firstn_val, skipn_val in V by apply Wx.
    change (bins_val (bins x)) with (aval x) in V. rewrite Ax, Ay.
    assert (bins_val bs <> 0) by (apply last_nz_val; assumption).
    split.
    + apply mk_canonical; auto. apply trimmed_last_nz; assumption.
    + unfold val, signed. cbn [negative bins]. rewrite V. reflexivity.
Qed.

(** *** Frac(const string&) *)
Lemma find_slash_char s : find_slash s = match find_char SLASH s with Some k => Some (firstn k s, skipn (S k) s) | None => None end.
Proof.
  induction s as [|c s IH]; [reflexivity|]. cbn [find_slash find_char]. destruct (Ascii.eqb c SLASH); [reflexivity|]. rewrite IH. destruct (find_char SLASH s); reflexivity.
Qed.
Lemma find_char_lt c s k : find_char c s = Some k -> (k < length s)%nat.
Proof.
  revert k. induction s as [|d s IH]; intros k H; [discriminate|]. cbn [find_char] in H. destruct (Ascii.eqb d c); [injection H as <-; cbn; lia|].
  destruct (find_char c s) as [j|]; [|discriminate]. injection H as <-. specialize (IH j eq_refl). cbn. lia.
Qed.
Lemma find_char_nth c s k : find_char c s = Some k -> nth_error s k = Some c.
Proof.
  revert k. induction s as [|d s IH]; intros k H; [discriminate|]. cbn [find_char] in H. destruct (Ascii.eqb d c) eqn:E; [injection H as <-; apply Ascii.eqb_eq in E as ->; reflexivity|].
  destruct (find_char c s) as [j|]; [|discriminate]. injection H as <-. apply IH. reflexivity.
Qed.
Lemma narrow_npos : narrow npos = -1.
Proof using Hw. apply (becomes_narrow w Hw). pose proof (half_range w Hw). split; [lia|]. unfold npos. exists (2 ^ (64 - w)). rewrite <- Z.pow_add_r by lia. replace (64 - w + w) with 64 by lia. reflexivity. Qed.
Theorem Frac_of_string_same t : zlen t < half -> Frac_of_string_n w t = Frac_of_string t.
Proof using Hw.
  intros L. pose proof (half_range w Hw). pose proof big. unfold Frac_of_string_n, Frac_of_string. destruct t as [|c t']; [reflexivity|]. set (t := c :: t') in *. rewrite find_slash_char.
  destruct (find_char SLASH t) as [k|] eqn:F.
  - apply find_char_lt in F. unfold zlen in L. rewrite (narrow_small w Hw) by lia. replace (Z.of_nat k <? 0) with false by lia. rewrite Nat2Z.id.
    rewrite !(Int_of_string_same w Hw) by (unfold zlen; rewrite firstn_length; lia). destruct (Int_of_string (firstn k t)); cbn [bind]; try reflexivity.
    rewrite (int_fits w) by lia. cbn [bind]. unfold substr_from, size64. rewrite Z.mod_small by lia. replace (Z.of_nat k + 1 <=? zlen t) with true by (unfold zlen; lia). cbn [bind].
    replace (Z.to_nat (Z.of_nat k + 1)) with (S k) by lia. rewrite (Int_of_string_same w Hw) by (unfold zlen; rewrite skipn_length; lia). reflexivity.
  - rewrite narrow_npos. cbn [Z.ltb Z.compare]. rewrite (Int_of_string_same w Hw) by exact L. reflexivity.
Qed.
Lemma Int_of_string_total t : (exists z, int_text t z) \/ (Int_of_string t = Throw InvalidArgument).
Proof.
  destruct (int_prefix_dec t) as [Hn|(p & q & z & E & Hp & Hq)].
  - right. unfold Int_of_string. rewrite Int_read_fail by auto. reflexivity.
  - destruct q as [|c q]; [left; exists z; rewrite E, app_nil_r; exact Hp|right]. apply Int_of_string_bad. intros z' Hz. rewrite E in Hz. apply (int_text_app _ _ _ _ Hp Hz); [discriminate|exact Hq].
Qed.
Lemma no_slash_int t z : int_text t z -> ~ In SLASH t.
Proof.
  intros H I. destruct H as [ds n Hn|ds n Hn]; apply numeral_iff in Hn as (_ & Hd & _); unfold digits in Hd; rewrite Forall_forall in Hd.
  - specialize (Hd _ I). discriminate.
  - destruct I as [I|I]; [discriminate|]. specialize (Hd _ I). discriminate.
Qed.
Theorem Frac_of_string_far t k r : find_char SLASH t = Some k -> becomes w (Z.of_nat k) r -> half <= Z.of_nat k + 1 -> zlen t < 2 ^ 63 ->
  (r = half - 1 -> (exists z, int_text (firstn (Z.to_nat r) t) z) -> Frac_of_string_n w t = UB) /\
  (r <> half - 1 \/ (forall z, ~ int_text (firstn (Z.to_nat r) t) z) -> Frac_of_string_n w t = Throw InvalidArgument).
Proof using Hw.
  intros F W Hk L. pose proof (half_range w Hw) as HR. pose proof big as BG. pose proof (two_half w Hw) as TH. assert (Hr : - half <= r < half) by apply W. pose proof (find_char_lt _ _ _ F) as Kl. pose proof (find_char_nth _ _ _ F) as Kn.
  unfold Frac_of_string_n. destruct t as [|c t']; [discriminate|]. set (t := c :: t') in *. rewrite F, (becomes_narrow w Hw _ _ W).
  destruct (r <? 0) eqn:Er.
  - split; [lia|]. intros _. rewrite (Int_of_string_refuses w Hw t); [reflexivity|]. intros z Hz. apply (no_slash_int _ _ Hz). eapply nth_error_In; exact Kn.
  - assert (Hrk : Z.of_nat k = r \/ r + 2 ^ w <= Z.of_nat k). { destruct W as [_ [q Wq]]. assert (q = 0 \/ 1 <= q) by nia. nia. }
    assert (Lf : zlen (firstn (Z.to_nat r) t) < half) by (unfold zlen; rewrite firstn_length; lia).
    destruct (Int_of_string_n w (firstn (Z.to_nat r) t)) as [x|e| | |] eqn:Ei.
    + cbn [bind]. destruct (Z.eq_dec r (half - 1)) as [E|E].
      * replace (r + 1) with half by lia. unfold int_. replace ((- half <=? half) && (half <? half)) with false by lia. split; [reflexivity|].
        intros [N|N]; [contradiction|]. rewrite (Int_of_string_refuses w Hw _ N) in Ei. discriminate.
      * split; [contradiction|]. intros _. rewrite (int_fits w) by lia. cbn [bind]. unfold substr_from, size64. rewrite Z.mod_small by lia. replace (r + 1 <=? zlen t) with true by (unfold zlen; lia). cbn [bind].
        rewrite (Int_of_string_refuses w Hw); [reflexivity|]. intros z Hz. apply (no_slash_int _ _ Hz). apply nth_error_In with (n := (k - S (Z.to_nat r))%nat).
        rewrite <- (firstn_skipn (S (Z.to_nat r)) t) in Kn. rewrite nth_error_app2, firstn_length_le in Kn by (rewrite ?firstn_length; lia). replace (Z.to_nat (r + 1)) with (S (Z.to_nat r)) by lia. exact Kn.
    + rewrite (Int_of_string_same w Hw _ Lf) in Ei. cbn [bind]. destruct (Int_of_string_total (firstn (Z.to_nat r) t)) as [[z Hz]|N].
      * destruct (Int_of_string_ok _ _ Hz) as (x & Ex & _). congruence.
      * split; [intros _ [z Hz]; destruct (Int_of_string_ok _ _ Hz) as (x & Ex & _); congruence|]. intros _. congruence.
    + exfalso. rewrite (Int_of_string_same w Hw _ Lf) in Ei. destruct (Int_of_string_total (firstn (Z.to_nat r) t)) as [[z Hz]|N]; [destruct (Int_of_string_ok _ _ Hz) as (x & Ex & _)|]; congruence.
    + exfalso. rewrite (Int_of_string_same w Hw _ Lf) in Ei. destruct (Int_of_string_total (firstn (Z.to_nat r) t)) as [[z Hz]|N]; [destruct (Int_of_string_ok _ _ Hz) as (x & Ex & _)|]; congruence.
    + exfalso. rewrite (Int_of_string_same w Hw _ Lf) in Ei. destruct (Int_of_string_total (firstn (Z.to_nat r) t)) as [[z Hz]|N]; [destruct (Int_of_string_ok _ _ Hz) as (x & Ex & _)|]; congruence.
Qed.
End Width.
