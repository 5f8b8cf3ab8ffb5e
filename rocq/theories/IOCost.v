(** Counted printing, reading and scaling: erasure and numbers of rounds. *)
From Coq Require Import ZifyBool.
From Verif Require Import Base IntModel IntSpec IntBasics IntAddSub IntMul IntDiv IntMod IntScale IntSize IntCalls IOModel IOSpec IOProofs FracModel FracProofs.
From Verif Require Import CostModel CostProofs IntCostModel IntCost IntCost2 IntCost3 IntCost4 IntCost5 FracCostModel FracCostSpec FracCost FracCost2 FracCost3 IOCostModel.
Local Open Scope list_scope.
Local Open Scope Z_scope.

(** *** Erasure *)
Lemma skip_zero_bins_e r : fst (skip_zero_bins_c r) = skip_zero_bins r.
Proof. induction r as [|b r IH]; [reflexivity|]. cbn. destruct (b =? 0); auto. Qed.
Lemma print_bins_e r : forall o, fst (print_bins_c o r) = print_bins o r.
Proof. induction r as [|b r IH]; intros o; [reflexivity|]. cbn. apply IH. Qed.
Lemma Int_print_e o x : fst (Int_print_c o x) = Int_print o x.
Proof. unfold Int_print_c, Int_print. rewrite skip_zero_bins_e. destruct (skip_zero_bins (rev (bins x))); [reflexivity|]. apply print_bins_e. Qed.
Lemma Frac_print_e o f : fst (Frac_print_c o f) = Frac_print o f.
Proof. unfold Frac_print_c, Frac_print. cbn [fst]. rewrite !Int_print_e. reflexivity. Qed.
Lemma take_digits_e n : forall ss, fst (take_digits_c n ss) = take_digits n ss.
Proof.
  induction n as [|n IH]; intros ss; [reflexivity|]. destruct ss as [|c ss]; [reflexivity|]. cbn. destruct (isdigit c); [|reflexivity].
  rewrite <- IH. destruct (take_digits_c n ss) as [[d r] k]. reflexivity.
Qed.
Lemma parse_int_e ss k : fst (parse_int_c ss k) = parse_int ss k.
Proof. unfold parse_int_c, parse_int. rewrite <- take_digits_e. destruct (take_digits_c _ ss) as [[d r] n]. reflexivity. Qed.
Lemma skip_zeros_e f : forall s, fst (skip_zeros_c f s) = skip_zeros f s.
Proof. induction f as [|f IH]; intros s; [reflexivity|]. cbn. destruct (peek s) as [c s']. destruct (is_char c ZERO); [apply IH|reflexivity]. Qed.
Lemma read_digits_e f : forall s acc, fst (read_digits_c f s acc) = read_digits f s acc.
Proof.
  induction f as [|f IH]; intros s acc; [reflexivity|]. cbn [read_digits_c read_digits]. destruct (peek s) as [c s']. destruct (isdigit_opt c); [|reflexivity].
  apply fst_lap. destruct (get s') as [[d|] s2]; apply IH.
Qed.
Lemma read_bins_e f : forall ss c n bs, fst (read_bins_c f ss c n bs) = read_bins f ss c n bs.
Proof.
  induction f as [|f IH]; intros ss c n bs; [reflexivity|]. cbn [read_bins_c read_bins]. destruct (c <? n); [|reflexivity]. apply fst_lap.
  rewrite <- parse_int_e. destruct (parse_int_c ss BIN_WIDTH) as [[[v r]| | | |] k]; cbn [cbind bind fst snd]; auto.
Qed.
Lemma read_magnitude_e s neg : fst (read_magnitude_c s neg) = read_magnitude s neg.
Proof.
  unfold read_magnitude_c, read_magnitude. apply fst_cbind; [apply skip_zeros_e|intros s1]. apply fst_cbind; [apply read_digits_e|intros [s2 ds]].
  destruct (Z.of_nat (length ds) =? 0); [reflexivity|]. apply fst_cbind.
  - destruct (Z.rem (Z.of_nat (length ds)) BIN_WIDTH >? 0); [|reflexivity]. rewrite <- parse_int_e. destruct (parse_int_c ds _) as [[[v r]| | | |] k]; reflexivity.
  - intros [[bs ss] c]. apply fst_cbind; [apply read_bins_e|reflexivity].
Qed.
Lemma Int_read_e s x : fst (Int_read_c s x) = Int_read s x.
Proof.
  unfold Int_read_c, Int_read. destruct (sentry s) as [ok s1]. destruct ok; [|reflexivity]. cbn [negb]. destruct (peek s1) as [c s2].
  destruct (is_char c MINUS).
  - destruct (peek (snd (get s2))) as [d s3]. destruct (isdigit_opt d); [apply read_magnitude_e|reflexivity].
  - destruct (peek s2) as [d s3]. destruct (isdigit_opt d); [apply read_magnitude_e|reflexivity].
Qed.
Lemma Int_of_string_e t : fst (Int_of_string_c t) = Int_of_string t.
Proof. unfold Int_of_string_c, Int_of_string. apply fst_cbind; [apply Int_read_e|intros [s x]]. destruct (fail s || negb (eofbit s)); reflexivity. Qed.
Lemma iter_mul10_e n : forall x, fst (iter_mul10_c n x) = iter_mul10 n x.
Proof. induction n as [|n IH]; intros x; [reflexivity|]. cbn [iter_mul10_c iter_mul10]. apply fst_lap. apply fst_cbind; [apply of_int64_e|intros t]. apply fst_cbind; [apply mul_assign_e|intros r]. apply IH. Qed.
Lemma iter_div10_e n : forall x, fst (iter_div10_c n x) = iter_div10 n x.
Proof. induction n as [|n IH]; intros x; [reflexivity|]. cbn [iter_div10_c iter_div10]. apply fst_lap. apply fst_cbind; [apply of_int64_e|intros t]. apply fst_cbind; [apply div_assign_e|intros r]. apply IH. Qed.
Lemma times_power_ten_e x p : fst (times_power_ten_c x p) = times_power_ten x p.
Proof.
  unfold times_power_ten_c, times_power_ten. destruct (p >? 0); [apply fst_cbind; [apply iter_mul10_e|reflexivity]|]. destruct (p <? 0); [|reflexivity].
  apply fst_cbind; [reflexivity|intros w]. cbn [cbind fst]. destruct (skipn _ (bins x)); [reflexivity|apply iter_div10_e].
Qed.
Lemma Frac_of_string_e t : fst (Frac_of_string_c t) = Frac_of_string t.
Proof.
  unfold Frac_of_string_c, Frac_of_string. destruct t as [|c t]; [reflexivity|]. apply fst_cbind.
  - destruct (find_slash (c :: t)) as [[l r]|].
    + apply fst_cbind; [apply Int_of_string_e|intros a]. apply fst_cbind; [apply Int_of_string_e|reflexivity].
    + apply fst_cbind; [apply Int_of_string_e|intros a]. apply fst_cbind; [apply of_int64_e|reflexivity].
  - intros f. apply fst_cbind; [apply equals_e|intros z]. destruct z; [reflexivity|apply normalize_e].
Qed.
Lemma Frac_read_e s f : fst (Frac_read_c s f) = result (snd (Frac_read s f)).
Proof.
  unfold Frac_read_c, Frac_read. destruct (sentry s) as [ok s1]. destruct ok; [|reflexivity]. cbn [negb]. destruct (peek s1) as [c s2].
  set (s3 := if is_char c LPAR then snd (get s2) else s2). rewrite <- (Int_read_e s3 (top f)).
  destruct (Int_read_c s3 (top f)) as [[[s4 t]| | | |] k]; cbn [cbind fst snd]; try reflexivity.
  destruct (negb (fail s4)) eqn:F.
  - destruct (peek s4) as [d s5]. destruct (is_char d SLASH).
    + rewrite <- (Int_read_e (snd (get s5)) (bot (mkFrac t (bot f)))). cbn [bot top].
      destruct (Int_read_c (snd (get s5)) (bot f)) as [[[s6 b]| | | |] k']; cbn [cbind fst snd].
      * destruct (negb (fail s6)); cbn [andb]; (destruct (is_char c LPAR); [destruct (peek s6)|]; cbn [fst snd]; rewrite normalize_e; reflexivity).
      * destruct (is_char c LPAR); reflexivity.
      * destruct (is_char c LPAR); reflexivity.
      * destruct (is_char c LPAR); reflexivity.
      * destruct (is_char c LPAR); reflexivity.
    + change (set_value 1) with (Ok (mkInt [1] false)). cbn [cbind free fst snd set_bot fthen]. rewrite normalize_e. destruct (is_char c LPAR); cbn [andb]; [destruct (peek s5)|]; reflexivity.
  - cbn [andb]. cbn [fst snd fthen]. apply normalize_e.
Qed.
Lemma from_double_e x p : fst (from_double_c x p) = from_double x p.
Proof.
  unfold from_double_c, from_double. destruct (negb (isFinite x)); [reflexivity|]. destruct (find_dot _) as [[l r]|]; [|reflexivity].
  replace (1 + Z.of_nat (length r) - 1) with (Z.of_nat (length r)) by lia.
  apply fst_cbind; [apply Int_of_string_e|intros t]. apply fst_cbind; [apply of_int64_e|intros b]. apply fst_cbind; [apply times_power_ten_e|intros b']. apply Frac_make_e.
Qed.

(** *** Printing *)
Lemma skip_zero_bins_n r : snd (skip_zero_bins_c r) = len r - len (skip_zero_bins r).
Proof. induction r as [|b r IH]; [reflexivity|]. cbn [skip_zero_bins_c skip_zero_bins]. destruct (b =? 0); cbn [fst snd]; [rewrite IH, len_cons; lia|lia]. Qed.
Lemma print_bins_n r : forall o, snd (print_bins_c o r) = len r.
Proof. induction r as [|b r IH]; intros o; [reflexivity|]. cbn [print_bins_c snd fst]. rewrite IH, len_cons. lia. Qed.
Lemma skip_nil l : Forall digit_ok l -> (skip_zero_bins (rev l) = [] <-> bins_val l = 0).
Proof.
  intros H. destruct (skip_zero_bins_ok (rev l)) as (n & E & Hs); [apply Forall_rev; auto|].
  assert (Hv : bins_val l = bins_val (rev (skip_zero_bins (rev l)))).
  { rewrite <- (rev_involutive l) at 1. rewrite E at 1. rewrite rev_app_distr, repeat_rev, bins_val_app, bins_val_repeat. lia. }
  rewrite Hv. destruct Hs as [->|(b & r & Er & Nb)]; [split; reflexivity|]. rewrite Er. split; [discriminate|].
  assert (F : Forall digit_ok (b :: r)). { rewrite <- Er. assert (Forall digit_ok (rev l)) as F by (apply Forall_rev; auto). rewrite E in F. apply Forall_app in F. apply F. }
  inversion F as [|? ? Db Dr]; subst. cbn [rev]. rewrite bins_val_app. cbn [bins_val]. intros Z0.
  pose proof (bins_val_nonneg (rev r) (Forall_rev Dr)). pose proof (pw_pos (length (rev r))). unfold digit_ok in Db. nia.
Qed.
Lemma Int_print_n o x : wf x -> snd (Int_print_c o x) = len (bins x) - (if val x =? 0 then 0 else 1).
Proof.
  intros [_ D]. unfold Int_print_c. rewrite skip_zero_bins_e, skip_zero_bins_n, len_rev. pose proof (skip_nil (bins x) D) as K.
  assert (V : val x = 0 <-> bins_val (bins x) = 0) by (unfold val; destruct (negative x); lia).
  destruct (skip_zero_bins (rev (bins x))) as [|b r].
  - replace (val x =? 0) with true by (symmetry; apply Z.eqb_eq, V, K; reflexivity). cbn [snd]. cbn. lia.
  - replace (val x =? 0) with false. 2:{ symmetry. apply Z.eqb_neq. intros E. apply V, K in E. discriminate. }
    cbn [snd]. rewrite print_bins_n, len_cons. lia.
Qed.

(** *** Reading *)
Lemma take_digits_n n : forall ss, digits (firstn n ss) -> (n <= length ss)%nat -> snd (take_digits_c n ss) = Z.of_nat n.
Proof.
  induction n as [|n IH]; intros ss Hd Hl; [reflexivity|]. destruct ss as [|c ss]; cbn [length] in Hl; [lia|]. cbn [firstn] in Hd. inversion Hd; subst.
  cbn [take_digits_c]. rewrite H1. specialize (IH ss H2 ltac:(lia)). destruct (take_digits_c n ss) as [[d r] k]. cbn [snd] in *. lia.
Qed.
Lemma parse_int_n ss k : digits (firstn (Z.to_nat k) ss) -> 1 <= k <= 9 -> k <= Z.of_nat (length ss) ->
  parse_int_c ss k = (Ok (nv 0 (firstn (Z.to_nat k) ss), skipn (Z.to_nat k) ss), k).
Proof.
  intros Hd Hk Hl. destruct (parse_int_ok ss k Hd Hk Hl) as [E _]. rewrite <- (parse_int_e ss k) in E.
  pose proof (take_digits_n (Z.to_nat k) ss Hd ltac:(lia)) as T. unfold parse_int_c in *. destruct (take_digits_c (Z.to_nat k) ss) as [[d r] n]. cbn [fst snd] in *. f_equal; [exact E|lia].
Qed.
Lemma read_bins_n m : forall fuel ss count n bs, (m < fuel)%nat -> length ss = (9 * m)%nat -> digits ss -> n = count + Z.of_nat (length ss) ->
  snd (read_bins_c fuel ss count n bs) = 10 * Z.of_nat m.
Proof.
  induction m as [|m IH]; intros fuel ss count n bs Hf Hl Hd Hn; (destruct fuel; [lia|]); cbn [read_bins_c].
  - replace (count <? n) with false by lia. reflexivity.
  - replace (count <? n) with true by lia. rewrite parse_int_n; [|apply Forall_firstn_; auto|unfold BIN_WIDTH; lia..]. cbn [cbind lap snd fst]. change (Z.to_nat BIN_WIDTH) with 9%nat.
    assert (Hl' : length (skipn 9 ss) = (9 * m)%nat) by (rewrite skipn_length; lia).
    rewrite IH; [unfold BIN_WIDTH; lia|lia|auto|apply Forall_skipn_; auto|rewrite Hl', Hn, Hl; unfold BIN_WIDTH; lia].
Qed.
Lemma skip_zeros_n zs : forall fuel t b, (length zs < fuel)%nat -> Forall (fun c => c = ZERO) zs -> starts (fun c => Ascii.eqb c ZERO) t = false ->
  snd (skip_zeros_c fuel (gs (zs ++ t) b)) = Z.of_nat (length zs).
Proof.
  induction zs as [|z zs IH]; intros fuel t b Hf Hz Ht; (destruct fuel as [|fuel]; [cbn in Hf; lia|]); cbn [skip_zeros_c app].
  - destruct t as [|c t]; [reflexivity|]. rewrite peek_cons. cbn [is_char]. cbn in Ht. rewrite Ht. reflexivity.
  - inversion Hz; subst. rewrite peek_cons. cbn [is_char]. change (Ascii.eqb ZERO ZERO) with true. rewrite get_cons. cbn [snd fst lap].
    rewrite IH by (auto; cbn in Hf; lia). cbn [length]. lia.
Qed.
Lemma read_digits_n ds : forall fuel t b acc, (length ds < fuel)%nat -> digits ds -> starts isdigit t = false ->
  snd (read_digits_c fuel (gs (ds ++ t) b) acc) = Z.of_nat (length ds).
Proof.
  induction ds as [|c ds IH]; intros fuel t b acc Hf Hd Ht; (destruct fuel as [|fuel]; [cbn in Hf; lia|]); cbn [read_digits_c app].
  - destruct t as [|c t]; [reflexivity|]. rewrite peek_cons. cbn [isdigit_opt]. cbn in Ht. rewrite Ht. reflexivity.
  - inversion Hd; subst. rewrite peek_cons. cbn [isdigit_opt]. rewrite H1, get_cons. cbn [lap snd].
    rewrite IH by (auto; cbn in Hf; lia). cbn [length]. lia.
Qed.
Lemma cbind_ok {A C} (m : counted A) a (f : A -> counted C) : fst m = Ok a -> snd (cbind m f) = snd m + snd (f a).
Proof. destruct m as [m n]. cbn [fst]. intros ->. reflexivity. Qed.
Definition read_rounds (z d : Z) : Z := z + 2 * d + d / 9.
Lemma read_magnitude_n zs r t b neg : Forall (fun c => c = ZERO) zs -> starts (fun c => Ascii.eqb c ZERO) r = false -> digits r -> starts isdigit t = false ->
  snd (read_magnitude_c (gs (zs ++ r ++ t) b) neg) = read_rounds (Z.of_nat (length zs)) (Z.of_nat (length r)).
Proof.
  intros Hz Hr Hd Ht. unfold read_magnitude_c.
  assert (Htz : starts (fun c => Ascii.eqb c ZERO) (r ++ t) = false).
  { destruct r; auto. cbn [app]. destruct t as [|c t]; auto. cbn in *. destruct (Ascii.eqb c ZERO) eqn:E; auto. apply Ascii.eqb_eq in E as ->. discriminate. }
  assert (F : (length zs < S (length (rest (gs (zs ++ r ++ t) b))))%nat) by (cbn [rest gs]; rewrite app_length; lia).
  rewrite (cbind_ok _ (stop_stream (r ++ t) (rev zs ++ b))) by (rewrite skip_zeros_e; apply skip_zeros_ok; auto).
  rewrite skip_zeros_n by auto. unfold read_rounds.
  destruct r as [|c r].
  - cbn [app length Z.of_nat]. change (0 / 9) with 0. replace (Z.of_nat (length zs) + 2 * 0 + 0) with (Z.of_nat (length zs) + 0) by lia. f_equal.
    destruct t as [|c t]; [reflexivity|]. cbn [stop_stream read_digits_c]. rewrite peek_cons. cbn [isdigit_opt]. cbn in Ht. rewrite Ht. reflexivity.
  - replace (stop_stream ((c :: r) ++ t) (rev zs ++ b)) with (gs ((c :: r) ++ t) (rev zs ++ b)) by reflexivity.
    remember (c :: r) as ds eqn:Eds. assert (F2 : (length ds < S (length (rest (gs (zs ++ ds ++ t) b))))%nat) by (cbn [rest gs]; rewrite !app_length; lia).
    rewrite (cbind_ok _ (stop_stream t (rev ds ++ rev zs ++ b), [] ++ ds)) by (rewrite read_digits_e; apply read_digits_ok; auto).
    rewrite read_digits_n by auto. cbn [app]. assert (Hlen : (1 <= length ds)%nat) by (subst; cbn; lia).
    replace (Z.of_nat (length ds) =? 0) with false by lia.
    set (k := Z.rem (Z.of_nat (length ds)) BIN_WIDTH). set (m := (length ds / 9)%nat).
    assert (Hkm : Z.of_nat (length ds) = k + 9 * Z.of_nat m /\ 0 <= k < 9) by (unfold k, m, BIN_WIDTH; rewrite Nat2Z.inj_div; ldiv).
    assert (HM : Z.of_nat (length ds) / 9 = Z.of_nat m) by (unfold m; rewrite Nat2Z.inj_div; reflexivity). rewrite HM.
    destruct (k >? 0) eqn:Ek.
    + rewrite parse_int_n; [|apply Forall_firstn_; auto|lia|lia]. cbn [cbind fst snd free].
      assert (Hl' : length (skipn (Z.to_nat k) ds) = (9 * m)%nat) by (rewrite skipn_length; lia).
      destruct (read_bins_ok m (S (length ds)) (skipn (Z.to_nat k) ds) k (Z.of_nat (length ds)) [nv 0 (firstn (Z.to_nat k) ds)]) as (cs & Hc & _); [lia|auto|apply Forall_skipn_; auto|lia|].
      rewrite (cbind_ok _ (cs ++ [nv 0 (firstn (Z.to_nat k) ds)])) by (rewrite read_bins_e; exact Hc).
      rewrite (read_bins_n m); [cbn [free snd]; lia|lia|auto|apply Forall_skipn_; auto|lia].
    + cbn [cbind fst snd free]. destruct (read_bins_ok m (S (length ds)) ds 0 (Z.of_nat (length ds)) []) as (cs & Hc & _); [lia|lia|auto|lia|].
      rewrite (cbind_ok _ (cs ++ [])) by (rewrite read_bins_e; exact Hc). rewrite (read_bins_n m); [cbn [free snd]; lia|lia|lia|auto|lia].
Qed.
Lemma Int_read_n s sg zs ds t this : good s = true -> rest s = sg ++ zs ++ ds ++ t -> sg = [] \/ sg = [MINUS] -> Forall (fun c => c = ZERO) zs ->
  starts (fun c => Ascii.eqb c ZERO) ds = false -> digits ds -> zs ++ ds <> [] -> starts isdigit t = false ->
  snd (Int_read_c s this) = read_rounds (Z.of_nat (length zs)) (Z.of_nat (length ds)).
Proof.
  intros Hg Hr Hs Hz Hd0 Hd Hne Ht. rewrite (good_gs s Hg), Hr. unfold Int_read_c, sentry. change (good (gs _ (back s))) with true. cbn [negb].
  assert (H : exists c r, zs ++ ds ++ t = c :: r /\ isdigit c = true).
  { destruct zs as [|c zs]; [destruct ds as [|c ds]; [destruct (Hne eq_refl)|]|]; [inversion Hd; subst; cbn; eauto|]. inversion Hz; subst. cbn. eauto. }
  destruct H as (c & r & E & Dc). destruct Hs as [-> | ->]; cbn [app].
  - rewrite E at 1. rewrite peek_cons. cbn [is_char]. rewrite digit_not_minus by auto. rewrite peek_cons. cbn [isdigit_opt]. rewrite Dc. rewrite <- E. apply read_magnitude_n; auto.
  - rewrite peek_cons. cbn [is_char]. change (Ascii.eqb MINUS MINUS) with true. cbv iota. rewrite get_cons. cbn [snd]. rewrite E at 1. rewrite peek_cons. cbn [isdigit_opt]. rewrite Dc. rewrite <- E. apply read_magnitude_n; auto.
Qed.
Lemma Int_read_n_fail s this : good s = true -> no_int_prefix (rest s) -> snd (Int_read_c s this) = 0.
Proof.
  intros Hg Hn. apply no_prefix_iff in Hn. rewrite (good_gs s Hg). unfold Int_read_c, sentry. change (good (gs (rest s) (back s))) with true. cbn [negb].
  destruct (rest s) as [|c r]; [reflexivity|]. rewrite peek_cons. cbn [is_char]. cbn [after_sign] in Hn. destruct (Ascii.eqb c MINUS).
  - rewrite get_cons. cbn [snd]. destruct r as [|d r]; [reflexivity|]. rewrite peek_cons. cbn [isdigit_opt]. cbn in Hn. rewrite Hn. reflexivity.
  - rewrite peek_cons. cbn [isdigit_opt]. cbn in Hn. rewrite Hn. reflexivity.
Qed.
Lemma Int_read_n_not_good s this : good s = false -> snd (Int_read_c s this) = 0.
Proof. intros H. unfold Int_read_c, sentry. rewrite H. reflexivity. Qed.

(** A text of L characters takes no more than 19/9 L rounds and gives no more than L/9 + 1 bins. *)
Definition clen (t : chars) : Z := Z.of_nat (length t).
Lemma int_text_bound p z : int_text p z -> Z.abs z < 10 ^ clen p.
Proof.
  unfold clen. intros [ds n H|ds n H]; apply numeral_iff in H as (_ & D & ->); pose proof (nv_bound ds D) as B; unfold p10 in B; [lia|].
  cbn [length]. assert (10 ^ Z.of_nat (length ds) <= 10 ^ Z.of_nat (S (length ds))) by (apply Z.pow_le_mono_r; lia). lia.
Qed.
Lemma bins_of_text x L : canonical x -> 0 <= L -> Z.abs (val x) < 10 ^ L -> len (bins x) <= L / 9 + 1.
Proof.
  intros C HL V. apply (size_le x (L / 9 + 1) C); [pose proof (Z.div_pos L 9); lia|]. eapply Z.lt_le_trans; [exact V|]. apply Z.pow_le_mono_r; [lia|].
  pose proof (Z.div_mod L 9 ltac:(lia)). pose proof (Z.mod_pos_bound L 9 ltac:(lia)). lia.
Qed.
Lemma read_rounds_le z d : 0 <= z -> 0 <= d -> 9 * read_rounds z d <= 19 * (z + d).
Proof. intros Hz Hd. unfold read_rounds. pose proof (Z.mul_div_le d 9 ltac:(lia)). lia. Qed.
Lemma Int_read_any s this : exists s' y, Int_read s this = Ok (s', y) /\ (0 <= snd (Int_read_c s this) /\ 9 * snd (Int_read_c s this) + 19 * clen (rest s') <= 19 * clen (rest s)) /\
  (y = this \/ canonical y /\ len (bins y) <= clen (rest s) / 9 + 1).
Proof.
  destruct (good s) eqn:G.
  - destruct (int_prefix_dec (rest s)) as [N|(p & t & z & E & Hp & Ht)].
    + rewrite (Int_read_fail s this G N), (Int_read_n_fail s this G N). do 2 eexists. split; [reflexivity|]. cbn [rest]. split; [lia|auto].
    + destruct (Int_read_ok s p z t this G E Hp Ht) as (x & Er & Cx & Vx). exists (stop_stream t (rev p ++ back s)), x. split; [exact Er|].
      assert (Rt : rest (stop_stream t (rev p ++ back s)) = t) by (destruct t; reflexivity). rewrite Rt.
      pose proof (int_text_bound p z Hp) as Bd. assert (Cp : clen (rest s) = clen p + clen t) by (rewrite E; unfold clen; rewrite app_length; lia). split.
      * assert (X : exists sg ds, p = sg ++ ds /\ (sg = [] \/ sg = [MINUS]) /\ digits ds /\ ds <> []).
        { destruct Hp as [ds n H|ds n H]; apply numeral_iff in H as (Ne & D & _); [exists [], ds|exists [MINUS], ds]; splits; auto. }
        destruct X as (sg & ds & -> & Hs & D & Ne). destruct (split_zeros ds) as (zs & r & -> & Hz & Hr). apply Forall_app in D as [Dz Dr]. apply ends_starts in Ht.
        rewrite (Int_read_n s sg zs r t this G); auto; [|rewrite E, <- !app_assoc; reflexivity].
        pose proof (read_rounds_le (Z.of_nat (length zs)) (Z.of_nat (length r)) ltac:(lia) ltac:(lia)).
        assert (0 <= read_rounds (Z.of_nat (length zs)) (Z.of_nat (length r))) by (unfold read_rounds; pose proof (Z.div_pos (Z.of_nat (length r)) 9 ltac:(lia) ltac:(lia)); lia). unfold clen in *. rewrite !app_length in Cp. lia.
      * right. split; auto. apply bins_of_text; auto; [unfold clen; lia|]. rewrite Vx. eapply Z.lt_le_trans; [exact Bd|]. apply Z.pow_le_mono_r; [lia|]. unfold clen in *. lia.
  - rewrite (Int_read_not_good s this G), (Int_read_n_not_good s this G). do 2 eexists. split; [reflexivity|]. cbn [rest set_fail]. split; [lia|auto].
Qed.
Lemma Int_of_string_sp t : 9 * snd (Int_of_string_c t) <= 19 * clen t /\ forall x, Int_of_string t = Ok x -> canonical x /\ len (bins x) <= clen t / 9 + 1.
Proof.
  destruct (Int_read_any (istream_of t) (mkInt [] false)) as (s & y & E & R & Y). cbn [rest istream_of] in *. split.
  - unfold Int_of_string_c. rewrite (cbind_ok _ (s, y)) by (rewrite Int_read_e; exact E). cbn [free snd]. unfold clen in *. lia.
  - intros x Ex. assert (Cx : canonical x /\ exists z, int_text t z /\ val x = z).
    { destruct (int_prefix_dec t) as [N|(p & r & z & Ep & Hp & Hr)].
      - unfold Int_of_string in Ex. rewrite Int_read_fail in Ex by auto. discriminate.
      - destruct r as [|c r].
        + rewrite app_nil_r in Ep. subst p. destruct (Int_of_string_ok t z Hp) as (x' & Ex' & C & V). rewrite Ex in Ex'. injection Ex' as <-. eauto.
        + rewrite Int_of_string_bad in Ex; [discriminate|]. intros z' Hz'. rewrite Ep in Hz'. apply (int_text_app p (c :: r) z z'); auto. discriminate. }
    destruct Cx as [C (z & Hz & V)]. split; auto. apply bins_of_text; auto; [unfold clen; lia|]. rewrite V. apply int_text_bound, Hz.
Qed.

(** *** Scaling *)
Definition mul10 (n : Z) : Z := n * n + 8 * n + 8.
Definition div10 (n : Z) : Z := 7575 * n + 6.
Lemma ten_c : of_int64_c 10 0 = (Ok (mkInt [10] false), 0). Proof. vm_compute. reflexivity. Qed.
Lemma one_c : of_int64_c 1 0 = (Ok (mkInt [1] false), 0). Proof. vm_compute. reflexivity. Qed.
Lemma wf10 : wf (mkInt [10] false). Proof. apply (canonicalb_spec (mkInt [10] false) eq_refl). Qed.
Lemma len_size x N : wf x -> trimmed (bins x) -> (1 <= N)%nat -> aval x < pw N -> len (bins x) <= Z.of_nat N.
Proof. intros W T P V. pose proof (size_le_of_aval x N W T P V). unfold size in *. unfold len. lia. Qed.
Lemma iter_mul10_sp k N : (1 <= N)%nat -> forall x, wf x -> trimmed (bins x) -> aval x * 10 ^ Z.of_nat k < pw N ->
  spends (iter_mul10_c k x) (Z.of_nat k * mul10 (Z.of_nat N)) (fun r => len (bins r) <= Z.of_nat N).
Proof.
  intros HN. induction k as [|k IH]; intros x W T V.
  - cbn [iter_mul10_c Z.of_nat]. replace (0 * _) with 0 by lia. apply sp_ok. apply len_size; auto. change (10 ^ Z.of_nat 0) with 1 in V. lia.
  - assert (P10 : 0 < 10 ^ Z.of_nat k) by (apply Z.pow_pos_nonneg; lia). rewrite Nat2Z.inj_succ, Z.pow_succ_r in V by lia.
    assert (A0 : 0 <= aval x) by (apply bins_val_nonneg, W).
    assert (Lx : len (bins x) <= Z.of_nat N) by (apply len_size; auto; nia).
    pose proof (len_nonneg (bins x)) as L0.
    cbn [iter_mul10_c]. rewrite ten_c. cbn [cbind fst snd].
    destruct (mul_assign_ok x (Some (mkInt [10] false)) W) as (r & E & Wr & Vr & _ & Tr & _); [intros ? [= <-]; apply wf10|]. cbn [rd] in *.
    assert (Ar : aval r = aval x * 10). { rewrite <- !abs_val by auto. rewrite Vr. change (val (mkInt [10] false)) with 10. lia. }
    pose proof (mul_assign_sp x (Some (mkInt [10] false)) W wf10) as M. cbv zeta in M. cbn [rd] in M. change (len (bins (mkInt [10] false))) with 1 in M.
    replace (Z.of_nat (S k) * mul10 (Z.of_nat N)) with (1 + ((mul10 (Z.of_nat N) - 1) + Z.of_nat k * mul10 (Z.of_nat N))) by lia.
    eapply sp_weak; [|apply Z.le_refl|exact (fun a H => H)]. apply sp_lap.
    assert (G : spends (r0 <-- mul_assign_c x (Some (mkInt [10] false)) ;;; iter_mul10_c k r0) (mul10 (Z.of_nat N) - 1 + Z.of_nat k * mul10 (Z.of_nat N)) (fun r0 => len (bins r0) <= Z.of_nat N)).
    { eapply sp_bind with (Q1 := fun a => a = r); [split; [eapply Z.le_trans; [exact (proj1 M)|unfold mul10; nia]|]|unfold mul10; nia|].
      - rewrite mul_assign_e, E. intros a [= <-]. reflexivity.
      - intros a ->. apply IH; [exact Wr|apply Tr; [exact T|apply trimmed_single|right; reflexivity]|rewrite Ar; lia]. }
    exact G.
Qed.
Lemma tpt_up x p : canonical x -> 0 < p -> snd (times_power_ten_c x p) <= (p mod 9) * mul10 (len (bins x) + 1) + p / 9.
Proof.
  intros C Hp. unfold times_power_ten_c. replace (p >? 0) with true by lia. unfold BIN_WIDTH. rewrite Z.quot_div_nonneg, Z.rem_mod_nonneg by lia.
  pose proof (Z.mod_pos_bound p 9 ltac:(lia)) as M. assert (D0 : 0 <= p / 9) by (apply Z.div_pos; lia).
  assert (W : wf x) by auto. assert (T : trimmed (bins x)) by (apply C). set (k := Z.to_nat (p mod 9)).
  pose proof (iter_mul10_sp k (S (length (bins x))) ltac:(lia) x W T) as S.
  assert (Kk : Z.of_nat k = p mod 9) by (unfold k; lia). rewrite Kk in S.
  assert (V : aval x * 10 ^ (p mod 9) < pw (Datatypes.S (length (bins x)))).
  { pose proof (bins_val_bound (bins x) (proj2 W)) as Bd. fold (aval x) in Bd. assert (0 <= aval x) by (apply bins_val_nonneg, W). rewrite pw_S.
    assert (10 ^ (p mod 9) <= B) by (change B with (10 ^ 9); apply Z.pow_le_mono_r; lia). assert (0 < 10 ^ (p mod 9)) by (apply Z.pow_pos_nonneg; lia). pose proof (pw_pos (length (bins x))). nia. }
  specialize (S V). replace (Z.of_nat (Datatypes.S (length (bins x)))) with (len (bins x) + 1) in S by (unfold len; lia).
  refine (proj1 (sp_bind _ _ _ (p / 9) _ (fun _ => True) S D0 _)). intros a _. split; [cbn [snd]; lia|auto].
Qed.
Lemma iter_mul10_pos k : forall x, 0 <= snd (iter_mul10_c k x).
Proof.
  induction k as [|k IH]; intros x; [cbn; lia|]. cbn [iter_mul10_c]. apply lap_pos, cbind_pos; [rewrite ten_c; cbn; lia|intros t].
  apply cbind_pos; [|auto]. unfold mul_assign_c, multiply_c. apply cbind_pos; [|intros; cbn; lia]. apply cbind_pos; [cbn; lia|intros; apply mul_loop_pos].
Qed.
(** One multiplication by ten of a number without zero bins. *)
Lemma tpt_up_co x p : no_zero (bins x) -> canonical x -> 0 < p -> p mod 9 <> 0 -> len (bins x) ^ 2 + 5 * len (bins x) + 1 + p / 9 < snd (times_power_ten_c x p).
Proof.
  intros N C Hp Hm. unfold times_power_ten_c. replace (p >? 0) with true by lia. unfold BIN_WIDTH. rewrite Z.quot_div_nonneg, Z.rem_mod_nonneg by lia.
  pose proof (Z.mod_pos_bound p 9 ltac:(lia)) as M. assert (W : wf x) by auto.
  destruct (iter_mul10_ok (Z.to_nat (p mod 9)) x W) as (r & E & _). rewrite (cbind_ok _ r) by (rewrite iter_mul10_e; exact E). cbn [snd].
  destruct (Z.to_nat (p mod 9)) as [|k] eqn:Ek; [lia|]. cbn [iter_mul10_c lap snd]. rewrite ten_c. rewrite (cbind_ok _ (mkInt [10] false)) by reflexivity.
  destruct (mul_assign_ok x (Some (mkInt [10] false)) W) as (q & Eq & Wq & _); [intros ? [= <-]; apply wf10|].
  rewrite (cbind_ok _ q) by (rewrite mul_assign_e; exact Eq).
  pose proof (mul_assign_co x (Some (mkInt [10] false)) N) as K. cbv zeta in K. cbn [rd] in K. specialize (K ltac:(repeat constructor; cbn; lia)).
  destruct (K q) as [K1 _]; [rewrite mul_assign_e; exact Eq|]. change (len (bins (mkInt [10] false))) with 1 in K1.
  pose proof (iter_mul10_pos k q). cbn [snd]. nia.
Qed.
Lemma iter_div10_sp k n : 0 <= n -> forall x, wf x -> len (bins x) <= n -> spends (iter_div10_c k x) (Z.of_nat k * div10 n) (fun r => len (bins r) <= n).
Proof.
  intros Hn. induction k as [|k IH]; intros x W L.
  - cbn [iter_div10_c Z.of_nat]. replace (0 * _) with 0 by lia. apply sp_ok. auto.
  - cbn [iter_div10_c]. rewrite ten_c. cbn [cbind fst snd]. pose proof (len_nonneg (bins x)) as L0.
    pose proof (div_assign_sp x (Some (mkInt [10] false)) W wf10) as [M1 M2]. cbn [rd] in *. change (len (bins (mkInt [10] false))) with 1 in *. change (round 1) with 7573 in *.
    replace (Z.of_nat (S k) * div10 n) with (1 + ((div10 n - 1) + Z.of_nat k * div10 n)) by lia.
    apply sp_lap.
    assert (G : spends (r0 <-- div_assign_c x (Some (mkInt [10] false)) ;;; iter_div10_c k r0) (div10 n - 1 + Z.of_nat k * div10 n) (fun r0 => len (bins r0) <= n)).
    { eapply sp_bind with (Q1 := fun a => wf a /\ len (bins a) <= n); [split; [eapply Z.le_trans; [exact M1|unfold div10; lia]|]|unfold div10; nia|].
      - intros a Ea. pose proof (M2 a Ea). split; [|lia]. rewrite div_assign_e in Ea. unfold div_assign in Ea. cbn [rd] in Ea.
        destruct (div_sound x (mkInt [10] false) W wf10) as [(r & E & Wr & _)|[(_ & Z0 & _)|[_ E]]]; [|cbn in Z0; lia|]; unfold op_div in E; rewrite E in Ea; try discriminate. injection Ea as <-. exact Wr.
      - intros a [Wa La]. apply IH; auto. }
    exact G.
Qed.
Lemma tpt_down x p : wf x -> INT32_MIN < p < 0 -> let q := - p / 9 in let n := len (bins x) in
  snd (times_power_ten_c x p) <= Z.min q n + (- p mod 9) * div10 (Z.max 0 (n - q)).
Proof.
  intros W Hp q n. unfold times_power_ten_c. replace (p >? 0) with false by lia. replace (p <? 0) with true by lia.
  replace (i32 (- p)) with (Ok (- p)) by (unfold i32, in_int32, INT32_MIN, INT32_MAX in *; destruct (_ && _)%bool eqn:I; [reflexivity|lia]). cbn [free cbind fst snd]. unfold BIN_WIDTH. rewrite Z.quot_div_nonneg, Z.rem_mod_nonneg by lia. fold q n.
  pose proof (Z.mod_pos_bound (- p) 9 ltac:(lia)) as M. assert (D0 : 0 <= q) by (apply Z.div_pos; lia).
  assert (L : len (skipn (Z.to_nat q) (bins x)) = Z.max 0 (n - q)) by (unfold n, IntCostModel.len; rewrite skipn_length; lia).
  assert (F : Forall digit_ok (skipn (Z.to_nat q) (bins x))) by (apply Forall_skipn_, W).
  destruct (skipn (Z.to_nat q) (bins x)) as [|b l] eqn:E.
  - cbn [snd free]. unfold div10. nia.
  - assert (S := iter_div10_sp (Z.to_nat (- p mod 9)) (Z.max 0 (n - q)) ltac:(lia) (mkInt (b :: l) (negative x))). cbn [bins] in S.
    destruct S as [S _]; [split; [discriminate|exact F]|lia|]. rewrite Z2Nat.id in S by lia. lia.
Qed.

(** *** Frac *)
Lemma reduction_mono a b : 0 <= a <= b -> reduction a <= reduction b.
Proof. intros H. unfold reduction. pose proof (Z.pow_le_mono_l a b 3 H). pose proof (Z.pow_le_mono_l a b 2 H). lia. Qed.
Lemma text_div a b : 0 <= a <= b -> a / 9 + 1 <= b / 9 + 1.
Proof. intros H. pose proof (Z.div_le_mono a b 9 ltac:(lia) ltac:(lia)). lia. Qed.
Definition text_rounds (l : Z) : Z := 19 * l / 9.
Lemma find_slash_len t : forall l r, find_slash t = Some (l, r) -> clen l + clen r + 1 = clen t.
Proof.
  unfold clen. induction t as [|c t IH]; intros l r H; [discriminate|]. cbn in H. destruct (Ascii.eqb c SLASH).
  - injection H as <- <-. cbn [length]. lia.
  - destruct (find_slash t) as [[l' r']|]; [|discriminate]. injection H as <- <-. specialize (IH _ _ eq_refl). cbn [length] in *. lia.
Qed.
Lemma Frac_of_string_sp t : let n := clen t / 9 + 1 in snd (Frac_of_string_c t) <= text_rounds (clen t) + n + reduction n.
Proof.
  intros n. assert (L0 : 0 <= clen t) by (unfold clen; lia). assert (N1 : 1 <= n) by (unfold n; pose proof (Z.div_pos (clen t) 9); lia). pose proof (reduction_pos n ltac:(lia)) as R0.
  assert (T0 : 0 <= text_rounds (clen t)) by (apply Z.div_pos; lia).
  destruct t as [|c t']; [cbn [Frac_of_string_c free snd]; lia|]. cbn [Frac_of_string_c]. remember (c :: t') as t eqn:Et. rewrite <- Z.add_assoc.
  refine (proj1 (sp_bind _ _ _ _ (fun f => canonical (top f) /\ canonical (bot f) /\ len (bins (top f)) <= n /\ len (bins (bot f)) <= n) (fun _ => True) _ _ _)); [|lia|].
  - unfold text_rounds. destruct (find_slash t) as [[l r]|] eqn:Es.
    + pose proof (find_slash_len t l r Es) as Sl. destruct (Int_of_string_sp l) as [Ll Pl]. destruct (Int_of_string_sp r) as [Lr Pr].
      assert (Cl : 0 <= clen l) by (unfold clen; lia). assert (Cr : 0 <= clen r) by (unfold clen; lia).
      eapply sp_weak; [eapply (sp_bind _ _ (19 * clen l / 9) (19 * clen r / 9) (fun x => canonical x /\ len (bins x) <= n)); [split| |]| |exact (fun a H => H)].
      * apply Z.div_le_lower_bound; lia.
      * rewrite Int_of_string_e. intros x Ex. destruct (Pl x Ex). pose proof (text_div (clen l) (clen t) ltac:(lia)). split; [auto|lia].
      * apply Z.div_pos; lia.
      * intros x [Cx Lx]. rewrite <- (Z.add_0_r (19 * clen r / 9)). eapply (sp_bind _ _ _ 0 (fun x => canonical x /\ len (bins x) <= n)); [split|lia|].
        -- apply Z.div_le_lower_bound; lia.
        -- rewrite Int_of_string_e. intros y Ey. destruct (Pr y Ey). pose proof (text_div (clen r) (clen t) ltac:(lia)). split; [auto|lia].
        -- intros y [Cy Ly]. apply sp_ok. auto.
      * apply Z.div_le_lower_bound; [lia|]. pose proof (Z.mul_div_le (19 * clen l) 9 ltac:(lia)). pose proof (Z.mul_div_le (19 * clen r) 9 ltac:(lia)). lia.
    + destruct (Int_of_string_sp t) as [Ll Pl]. rewrite <- (Z.add_0_r (19 * clen t / 9)). eapply (sp_bind _ _ _ 0 (fun x => canonical x /\ len (bins x) <= n)); [split|lia|].
      * apply Z.div_le_lower_bound; lia.
      * rewrite Int_of_string_e. intros x Ex. destruct (Pl x Ex). auto.
      * intros x [Cx Lx]. rewrite one_c. cbn [cbind fst snd free]. split; [cbn; lia|]. intros a [= <-]. cbn [top bot bins]. splits; auto. apply (canonicalb_spec (mkInt [1] false) eq_refl).
  - intros f (Ct & Cb & Lt & Lb). eapply sp_bind; [apply (equals_sp _ _ n); [lia|exact Lb]|lia|]. intros z _. destruct z; [split; [cbn; lia|auto]|].
    eapply sp_weak; [apply (normalize_sp f n); auto|lia|auto].
Qed.
Lemma peek_rest s : rest (snd (peek s)) = rest s.
Proof. unfold peek. destruct (sentry s) as [ok s'] eqn:E. unfold sentry in E. destruct (good s); injection E as <- <-; [|reflexivity]. destruct (rest s) eqn:R; cbn; auto. Qed.
Lemma get_rest s : clen (rest (snd (get s))) <= clen (rest s).
Proof. unfold get, sentry, clen. destruct (good s); [|cbn; lia]. destruct (rest s) eqn:R; cbn; rewrite ?R; cbn [length]; lia. Qed.
Lemma Frac_read_sp s f n : frac_fits n f -> let k := Z.max n (clen (rest s) / 9 + 1) in snd (Frac_read_c s f) <= text_rounds (clen (rest s)) + reduction k.
Proof.
  intros [[Ct Lt] [Cb Lb]] k. change (len (bins (top f)) <= n) in Lt. change (len (bins (bot f)) <= n) in Lb. set (L := clen (rest s)) in *.
  assert (L0 : 0 <= L) by (unfold L, clen; lia). assert (K1 : 1 <= k) by (unfold k; pose proof (Z.div_pos L 9); lia). pose proof (reduction_pos k ltac:(lia)) as R0.
  assert (T0 : 0 <= text_rounds L) by (apply Z.div_pos; lia).
  unfold Frac_read_c. destruct (sentry s) as [ok s1] eqn:E1. destruct ok; cbn [negb]; [|cbn [free snd]; lia].
  assert (R1 : rest s1 = rest s) by (unfold sentry in E1; destruct (good s); [injection E1 as <-; reflexivity|discriminate]).
  destruct (peek s1) as [c s2] eqn:E2. assert (R2 : rest s2 = rest s) by (pose proof (peek_rest s1) as P; rewrite E2 in P; cbn [snd] in P; congruence).
  set (s3 := if is_char c LPAR then snd (get s2) else s2). assert (R3 : clen (rest s3) <= L). { unfold s3. pose proof (get_rest s2) as G. rewrite R2 in G. destruct (is_char c LPAR); [exact G|rewrite R2; apply Z.le_refl]. }
  destruct (Int_read_any s3 (top f)) as (s4 & t & E4 & B4 & Y4). rewrite (cbind_ok _ (s4, t)) by (rewrite Int_read_e; exact E4).
  assert (Kt : canonical t /\ len (bins t) <= k).
  { destruct Y4 as [->|[C Ln]]; [split; [auto|lia]|]. split; auto. pose proof (text_div (clen (rest s3)) L ltac:(unfold clen in *; lia)). lia. }
  destruct Kt as [Kt1 Kt2]. assert (C4 : 0 <= clen (rest s4)) by (unfold clen; lia).
  assert (D4 : snd (Int_read_c s3 (top f)) <= text_rounds L) by (apply Z.div_le_lower_bound; lia).
  assert (N : forall b, canonical b -> len (bins b) <= k -> snd (normalize_c (mkFrac t b)) <= reduction k).
  { intros b C Ln. apply (proj1 (normalize_sp (mkFrac t b) k (canonical_okrep _ Kt1) (canonical_okrep _ C) Kt2 Ln)). }
  destruct (negb (fail s4)).
  - destruct (peek s4) as [c5 s5] eqn:E5. assert (R5 : rest s5 = rest s4) by (pose proof (peek_rest s4) as P; rewrite E5 in P; cbn [snd] in P; congruence).
    destruct (is_char c5 SLASH).
    + destruct (Int_read_any (snd (get s5)) (bot f)) as (s6 & b & E6 & B6 & Y6). rewrite (cbind_ok _ (s6, b)) by (rewrite Int_read_e; exact E6). cbn [snd].
      pose proof (get_rest s5) as G. rewrite R5 in G. assert (0 <= clen (rest s6)) by (unfold clen; lia).
      assert (Kb : canonical b /\ len (bins b) <= k).
      { destruct Y6 as [->|[C Ln]]; [split; [auto|lia]|]. split; auto. pose proof (text_div (clen (rest (snd (get s5)))) L ltac:(unfold clen in *; lia)). lia. }
      pose proof (N b (proj1 Kb) (proj2 Kb)). assert (snd (Int_read_c s3 (top f)) + snd (Int_read_c (snd (get s5)) (bot f)) <= text_rounds L) by (apply Z.div_le_lower_bound; lia). lia.
    + assert (E : set_value 1 = Ok (mkInt [1] false)) by reflexivity. rewrite E. cbn [free cbind fst snd].
      pose proof (N (mkInt [1] false) (canonicalb_spec (mkInt [1] false) eq_refl) ltac:(cbn; lia)). lia.
  - pose proof (N (bot f) Cb ltac:(lia)). lia.
Qed.
Lemma find_dot_len t : forall l r, find_dot t = Some (l, r) -> clen l + clen r + 1 = clen t.
Proof.
  unfold clen. induction t as [|c t IH]; intros l r H; [discriminate|]. cbn in H. destruct (Ascii.eqb c DOT).
  - injection H as <- <-. cbn [length]. lia.
  - destruct (find_dot t) as [[l' r']|]; [|discriminate]. injection H as <- <-. specialize (IH _ _ eq_refl). cbn [length] in *. lia.
Qed.
Lemma from_double_sp x p : let L := clen (fixed_text x (stream_precision p)) in let n := L / 9 + 1 in
  snd (from_double_c x p) <= text_rounds L + (224 + L / 9) + (3 * n + reduction n).
Proof.
  intros L n. assert (L0 : 0 <= L) by (unfold L, clen; lia). assert (N1 : 1 <= n) by (unfold n; pose proof (Z.div_pos L 9); lia). pose proof (reduction_pos n ltac:(lia)) as R0.
  assert (T0 : 0 <= text_rounds L) by (apply Z.div_pos; lia). assert (D0 : 0 <= L / 9) by (apply Z.div_pos; lia).
  unfold from_double_c. destruct (negb (isFinite x)); [cbn [free snd]; lia|]. destruct (find_dot _) as [[l r]|] eqn:Ed; [|cbn [free snd]; lia].
  pose proof (find_dot_len _ l r Ed) as Sl. fold L in Sl. assert (Cr : 0 <= clen r) by (unfold clen; lia). assert (Cl : 0 <= clen l) by (unfold clen; lia).
  assert (Clr : clen (l ++ r) = clen l + clen r) by (unfold clen; rewrite app_length; lia).
  destruct (Int_of_string_sp (l ++ r)) as [Ls Ps]. rewrite <- Z.add_assoc.
  refine (proj1 (sp_bind _ _ _ _ (fun x => canonical x /\ len (bins x) <= n) (fun _ => True) _ _ _)); [split|lia|].
  - apply Z.div_le_lower_bound; lia.
  - rewrite Int_of_string_e. intros y Ey. destruct (Ps y Ey). pose proof (text_div (clen (l ++ r)) L ltac:(lia)). split; [auto|lia].
  - intros t [Ct Lt]. rewrite one_c. pose proof (canonicalb_spec (mkInt [1] false) eq_refl) as C1.
    assert (G : spends (b <-- times_power_ten_c (mkInt [1] false) (Z.of_nat (length r)) ;;; Frac_make_c t b) (224 + L / 9 + (3 * n + reduction n)) (fun _ => True)).
    { eapply (sp_bind _ _ _ _ (fun b => canonical b /\ len (bins b) <= n)); [|lia|intros b [Cb Lb]; apply Frac_make_sp; auto].
      destruct (Z.eq_dec (clen r) 0) as [Z0|Z0].
      { unfold clen in Z0. rewrite Z0. split; [cbn; lia|]. cbn. intros a [= <-]. split; auto. }
      assert (Pr : 0 < clen r) by lia. split.
      - eapply Z.le_trans; [apply (tpt_up (mkInt [1] false) (clen r) C1 Pr)|]. change (mul10 (len (bins (mkInt [1] false)) + 1)) with 28.
        pose proof (Z.mod_pos_bound (clen r) 9 ltac:(lia)). pose proof (text_div (clen r) L ltac:(lia)). lia.
      - rewrite times_power_ten_e. intros a Ea. destruct (tpt_pos (mkInt [1] false) (clen r) ltac:(auto) Pr) as (b & Eb & Wb & Vb & Nb & Tb).
        unfold clen in Eb. rewrite Ea in Eb. injection Eb as <-. assert (Ca : canonical a).
        { split; [auto|]. split; [apply Tb; [apply C1|left; discriminate]|]. rewrite Nb. discriminate. }
        split; auto. pose proof (text_div (clen r) L ltac:(lia)) as TD. assert (len (bins a) <= clen r / 9 + 1); [|unfold n; lia].
        apply (size_le a (clen r / 9 + 1) Ca); [pose proof (Z.div_pos (clen r) 9); lia|]. rewrite Vb. change (val (mkInt [1] false)) with 1.
        assert (10 ^ clen r < 10 ^ (9 * (clen r / 9 + 1))); [|lia]. apply Z.pow_lt_mono_r; [lia| |]; pose proof (Z.div_mod (clen r) 9 ltac:(lia)); pose proof (Z.mod_pos_bound (clen r) 9 ltac:(lia)); lia. }
    exact G.
Qed.
