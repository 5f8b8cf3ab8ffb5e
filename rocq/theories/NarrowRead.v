(** Reading with the number of digits kept in an int. *)
From Coq Require Import Ascii String ZifyBool Znumtheory.
From Verif Require Import Base IntModel IntSpec IntBasics IntAddSub IntMul IntDiv IntMod IOModel IOSpec IOProofs NarrowModel NarrowSpec NarrowProofs.
Import ListNotations.
Local Open Scope list_scope.
Local Open Scope Z_scope.

Section Width.
Variable w : Z.
Hypothesis Hw : 8 <= w <= 63.
Local Notation half := (2 ^ (w - 1)).
Local Notation narrow := (narrow w).

(** *** Short texts: nothing changes *)
Lemma read_bins_same fuel : forall ss count n bs, (9 | n - count) -> 0 <= count -> n < half -> read_bins_n w fuel ss count n bs = read_bins fuel ss count n bs.
Proof using Hw.
  pose proof (half_range w Hw). induction fuel as [|f IH]; intros ss count n bs D H1 H2; [reflexivity|]. cbn [read_bins_n read_bins].
  destruct (count <? n) eqn:E; [|reflexivity]. destruct (parse_int ss BIN_WIDTH) as [[v t]| | | |]; cbn [bind]; try reflexivity.
  destruct D as [k D]. unfold BIN_WIDTH. rewrite (int_fits w) by lia. cbn [bind]. apply IH; [exists (k - 1)| |]; lia.
Qed.
Definition old_parse (ds : chars) (neg : bool) : res (option Int) :=
  if Z.of_nat (length ds) =? 0 then Ok None else bs <- parse_digits ds ;; Ok (Some (mkInt bs neg)).
Lemma parse_same ds neg : zlen ds < half -> parse_digits_n w ds neg = old_parse ds neg.
Proof using Hw.
  intros L. pose proof (half_range w Hw). unfold parse_digits_n, old_parse. rewrite (narrow_small w Hw) by (unfold zlen in *; lia). fold (zlen ds).
  destruct (zlen ds =? 0) eqn:E; [reflexivity|]. unfold parse_digits. fold (zlen ds).
  assert (0 <= zlen ds) by (unfold zlen; lia). assert (R : 0 <= Z.rem (zlen ds) BIN_WIDTH < 9 /\ (9 | zlen ds - Z.rem (zlen ds) BIN_WIDTH)).
  { unfold BIN_WIDTH. split; [apply Z.rem_bound_pos; lia|]. exists (Z.quot (zlen ds) 9). pose proof (Z.quot_rem (zlen ds) 9). lia. }
  destruct (Z.rem (zlen ds) BIN_WIDTH >? 0) eqn:K.
  - destruct (parse_int ds (Z.rem (zlen ds) BIN_WIDTH)) as [[v t]| | | |]; cbn [bind]; try reflexivity.
    rewrite (int_fits w) by lia. cbn [bind]. rewrite read_bins_same by (rewrite ?Z.add_0_l; tauto || lia). reflexivity.
  - cbn [bind]. rewrite read_bins_same; [reflexivity| |lia|lia]. replace (zlen ds - 0) with (zlen ds - Z.rem (zlen ds) BIN_WIDTH) by lia. tauto.
Qed.
Lemma peek_rest s : rest (snd (peek s)) = rest s.
Proof. unfold peek, sentry. destruct (good s); [destruct (rest s) eqn:E; cbn; rewrite E; reflexivity|reflexivity]. Qed.
Lemma get_rest s : match get s with (Some _, s') => S (length (rest s')) = length (rest s) | (None, s') => rest s' = rest s end.
Proof. unfold get, sentry. destruct (good s); [destruct (rest s) eqn:E; cbn; rewrite ?E; reflexivity|reflexivity]. Qed.
Lemma skip_zeros_len fuel : forall s s', skip_zeros fuel s = Ok s' -> (length (rest s') <= length (rest s))%nat.
Proof.
  induction fuel as [|f IH]; intros s s' H; [discriminate|]. cbn [skip_zeros] in H. pose proof (peek_rest s) as P. destruct (peek s) as [c s1]. cbn [snd] in P.
  destruct (is_char c ZERO); [|injection H as <-; rewrite P; lia]. apply IH in H. pose proof (get_rest s1) as G. destruct (get s1) as [[d|] s2]; cbn [snd] in H; [|rewrite G in H]; rewrite P in *; lia.
Qed.
Lemma read_digits_len fuel : forall s acc s' ds, read_digits fuel s acc = Ok (s', ds) -> (length ds + length (rest s') <= length acc + length (rest s))%nat.
Proof.
  induction fuel as [|f IH]; intros s acc s' ds H; [discriminate|]. cbn [read_digits] in H. pose proof (peek_rest s) as P. destruct (peek s) as [c s1]. cbn [snd] in P.
  destruct (isdigit_opt c); [|injection H as <- <-; rewrite P; lia]. pose proof (get_rest s1) as G. destruct (get s1) as [[d|] s2]; apply IH in H; rewrite ?app_length in H; cbn [length] in H; [|rewrite G in H]; rewrite P in *; lia.
Qed.
Lemma magnitude_same s neg : zlen (rest s) < half -> read_magnitude_n w s neg = read_magnitude s neg.
Proof using Hw.
  intros L. unfold read_magnitude_n, read_magnitude. destruct (skip_zeros _ s) as [s1| | | |] eqn:E1; cbn [bind]; try reflexivity.
  destruct (read_digits _ s1 []) as [[s2 ds]| | | |] eqn:E2; cbn [bind]; try reflexivity.
  apply skip_zeros_len in E1. apply read_digits_len in E2. cbn [length] in E2. rewrite parse_same by (unfold zlen in *; lia).
  unfold old_parse. destruct (Z.of_nat (length ds) =? 0) eqn:Z0; cbn [bind]; [reflexivity|]. unfold parse_digits.
  destruct (if _ >? 0 then _ else _) as [[[b t] c]| | | |]; cbn [bind]; try reflexivity. destruct (read_bins _ t c _ b); reflexivity.
Qed.
Theorem Int_read_same s this : zlen (rest s) < half -> Int_read_n w s this = Int_read s this.
Proof using Hw.
  intros L. unfold Int_read_n, Int_read. destruct (sentry s) as [ok s1] eqn:E. assert (R : rest s1 = rest s) by (unfold sentry in E; destruct (good s); injection E as <- <-; reflexivity).
  destruct (negb ok); [reflexivity|]. pose proof (peek_rest s1) as P. destruct (peek s1) as [c s2]. cbn [snd] in P. destruct (is_char c MINUS).
  - pose proof (get_rest s2) as G. destruct (get s2) as [d s3]. cbn [snd]. assert (Q : zlen (rest s3) < half) by (unfold zlen in *; destruct d; [|rewrite G]; rewrite P, R in *; lia).
    pose proof (peek_rest s3) as P3. destruct (peek s3) as [e s4]. cbn [snd] in P3. destruct (isdigit_opt e); [|reflexivity]. apply magnitude_same. rewrite P3. exact Q.
  - pose proof (peek_rest s2) as P2. destruct (peek s2) as [d s3]. cbn [snd] in P2. destruct (isdigit_opt d); [|reflexivity]. apply magnitude_same. rewrite P2, P, R. exact L.
Qed.
Theorem Int_of_string_same t : zlen t < half -> Int_of_string_n w t = Int_of_string t.
Proof using Hw. intros L. unfold Int_of_string_n, Int_of_string. rewrite Int_read_same by exact L. reflexivity. Qed.

(** *** Texts of any length *)
Lemma read_bins_more m : forall fuel ss count bs, (m < fuel)%nat -> (9 * m <= length ss)%nat -> digits (firstn (9 * m) ss) -> 0 <= count -> count + 9 * Z.of_nat m < half ->
  exists cs, read_bins_n w fuel ss count (count + 9 * Z.of_nat m) bs = Ok (cs ++ bs) /\ length cs = m /\ Forall digit_ok cs /\ bins_val cs = nv 0 (firstn (9 * m) ss).
Proof using Hw.
  pose proof (half_range w Hw). induction m as [|m IH]; intros fuel ss count bs Hf Hl Hd Hc Hh.
  - destruct fuel; [lia|]. cbn [read_bins_n]. replace (count <? count + 9 * Z.of_nat 0) with false by lia. exists []. splits; auto.
  - destruct fuel; [lia|]. cbn [read_bins_n]. replace (count <? count + 9 * Z.of_nat (S m)) with true by lia.
    replace (9 * S m)%nat with (9 + 9 * m)%nat in * by lia. 
    assert (Sp : firstn (9 + 9 * m) ss = firstn 9 ss ++ firstn (9 * m) (skipn 9 ss)).
    { rewrite <- (firstn_skipn 9 ss) at 1. rewrite firstn_app, firstn_firstn, firstn_length_le by lia. f_equal; [f_equal; lia|]. f_equal. lia. }
    rewrite Sp in Hd. apply Forall_app in Hd as [Hd1 Hd2].
    destruct (parse_int_ok ss BIN_WIDTH) as [E Hv]; [exact Hd1|unfold BIN_WIDTH; lia|unfold BIN_WIDTH; lia|].
    rewrite E, bind_ok. change (Z.to_nat BIN_WIDTH) with 9%nat in *. rewrite (int_fits w) by (unfold BIN_WIDTH; lia). rewrite bind_ok.
    assert (Hl' : (9 * m <= length (skipn 9 ss))%nat) by (rewrite skipn_length; lia).
    destruct (IH fuel (skipn 9 ss) (count + BIN_WIDTH) (nv 0 (firstn 9 ss) :: bs)) as (cs & Hr & Hlc & Hdc & Hvc); [lia|auto|auto|unfold BIN_WIDTH; lia|unfold BIN_WIDTH; lia|].
    replace (count + 9 * Z.of_nat (S m)) with (count + BIN_WIDTH + 9 * Z.of_nat m) by (unfold BIN_WIDTH; lia).
    exists (cs ++ [nv 0 (firstn 9 ss)]). splits.
    + rewrite Hr, <- app_assoc. reflexivity.
    + rewrite app_length; cbn; lia.
    + apply Forall_app. split; auto.
    + rewrite bins_val_app, Hlc, Hvc. cbn [bins_val]. rewrite Sp, nv_app0. rewrite (firstn_length_le (skipn 9 ss)) by lia. rewrite p10_pw. lia.
Qed.
Lemma firstn_plus {A} (l : list A) a b : (a + b <= length l)%nat -> firstn (a + b) l = firstn a l ++ firstn b (skipn a l).
Proof.
  intros H. rewrite <- (firstn_skipn a l) at 1. rewrite firstn_app, firstn_firstn, firstn_length_le by lia. f_equal; f_equal; lia.
Qed.
Lemma parse_pos c ds neg r : digits (c :: ds) -> c <> ZERO -> becomes w (zlen (c :: ds)) r -> 0 < r ->
  exists x, parse_digits_n w (c :: ds) neg = Ok (Some x) /\ canonical x /\ val x = signed neg (nv 0 (firstn (Z.to_nat r) (c :: ds))).
Proof using Hw.
  intros Hd Hc W Hr. unfold parse_digits_n. rewrite (becomes_narrow w Hw _ _ W). replace (r =? 0) with false by lia.
  pose proof (half_range w Hw) as HR. pose proof (two_half w Hw) as TH.
  assert (Hle : r <= zlen (c :: ds)). { destruct W as [Wr [k Wk]]. assert (0 <= zlen (c :: ds)) by (unfold zlen; lia). assert (0 <= k) by nia. nia. }
  assert (Hrh : r < half) by apply W. remember (c :: ds) as ss eqn:Es. set (N := Z.to_nat r). assert (HN : Z.of_nat N = r) by lia. assert (HNl : (N <= length ss)%nat) by (unfold zlen in Hle; lia).
  assert (Hdn : digits (firstn N ss)) by (apply Forall_firstn_; auto).
  assert (Hlead : p10 (N - 1) <= nv 0 (firstn N ss)).
  { rewrite Es. destruct N as [|n'] eqn:EN; [lia|]. cbn [firstn]. replace (S n' - 1)%nat with (length (firstn n' ds)); [apply nv_lead; auto|].
    - rewrite Es in Hdn. exact Hdn.
    - rewrite firstn_length_le; [lia|]. rewrite Es in HNl. cbn in HNl. lia. }
  set (k := Z.rem r BIN_WIDTH). set (m := (N / 9)%nat).
  assert (Hkm : r = k + 9 * Z.of_nat m /\ 0 <= k < 9).
  { unfold k, m, BIN_WIDTH. rewrite <- HN, Nat2Z.inj_div. ldiv. }
  destruct Hkm as [Hkm Hk9]. assert (HNkm : N = (Z.to_nat k + 9 * m)%nat) by lia. pose proof (firstn_plus ss (Z.to_nat k) (9 * m) ltac:(lia)) as Sp. rewrite <- HNkm in Sp.
  assert (Hls : (9 * m <= length (skipn (Z.to_nat k) ss))%nat) by (rewrite skipn_length; lia).
  destruct (k >? 0) eqn:Ek.
  - destruct (parse_int_ok ss k) as [E Hv]; [apply Forall_firstn_; auto|lia|lia|].
    rewrite E, bind_ok. cbv beta iota. rewrite (int_fits w) by lia. rewrite !bind_ok. cbv beta iota. rewrite Z.add_0_l.
    destruct (read_bins_more m (S (length ss)) (skipn (Z.to_nat k) ss) k [nv 0 (firstn (Z.to_nat k) ss)])
      as (cs & Hrd & Hlc & Hdc & Hvc); [lia|lia|apply Forall_firstn_, Forall_skipn_; auto|lia|lia|].
    rewrite <- Hkm in Hrd. rewrite Hrd, bind_ok.
    assert (Hval : bins_val (cs ++ [nv 0 (firstn (Z.to_nat k) ss)]) = nv 0 (firstn N ss)).
    { rewrite bins_val_app, Hlc, Hvc. cbn [bins_val]. rewrite Sp, nv_app0, (firstn_length_le (skipn _ _)), p10_pw by lia. lia. }
    eexists. split; [reflexivity|]. split.
    + apply mk_canonical.
      * apply Forall_app. split; auto. constructor; auto. unfold digit_ok.
        assert (10 ^ k <= 10 ^ 9) by (apply Z.pow_le_mono_r; lia). change (10 ^ 9) with B in H. lia.
      * apply trimmed_app_nz. intros E0. rewrite bins_val_app, Hlc, Hvc, E0 in Hval. cbn [bins_val] in Hval.
        pose proof (nv_bound (firstn (9 * m) (skipn (Z.to_nat k) ss))) as Hb. rewrite firstn_length_le in Hb by lia.
        assert (p10 (9 * m) <= p10 (N - 1)) by (apply Z.pow_le_mono_r; lia).
        assert (digits (firstn (9 * m) (skipn (Z.to_nat k) ss))) by (apply Forall_firstn_, Forall_skipn_; auto). specialize (Hb H0). lia.
      * intros _. rewrite Hval. pose proof (p10_pos (N - 1)). lia.
    + unfold val, signed. cbn [negative bins]. rewrite Hval. reflexivity.
  - cbn [bind]. cbv beta iota. replace (Z.to_nat k) with 0%nat in * by lia. cbn [Nat.add skipn firstn app] in *.
    destruct (read_bins_more m (S (length ss)) ss 0 []) as (cs & Hrd & Hlc & Hdc & Hvc); [lia|lia|rewrite <- Sp; auto|lia|lia|].
    replace (0 + 9 * Z.of_nat m) with r in Hrd by lia. rewrite Hrd, bind_ok, app_nil_r.
    eexists. split; [reflexivity|]. split.
    + apply mk_canonical; [exact Hdc| |].
      * apply trimmed_of_lower; auto; [destruct cs; cbn in *; [lia|discriminate]|].
        intros _. rewrite Hvc, Hlc, <- Sp. transitivity (p10 (N - 1)); auto. rewrite <- p10_pw. apply Z.pow_le_mono_r; lia.
      * intros _. rewrite Hvc, <- Sp. pose proof (p10_pos (N - 1)). lia.
    + unfold val, signed. cbn [negative bins]. rewrite Hvc, <- Sp. reflexivity.
Qed.
Lemma parse_neg ds neg r : becomes w (zlen ds) r -> r < 0 -> parse_digits_n w ds neg = Ok (Some (mkInt [] neg)).
Proof using Hw.
  intros W Hr. unfold parse_digits_n. rewrite (becomes_narrow w Hw _ _ W). replace (r =? 0) with false by lia.
  assert (Z.rem r BIN_WIDTH <= 0). { unfold BIN_WIDTH. pose proof (Z.rem_bound_pos_neg r 9). lia. }
  replace (Z.rem r BIN_WIDTH >? 0) with false by lia. cbn [bind read_bins_n]. replace (0 <? r) with false by lia. reflexivity.
Qed.
Lemma parse_zero ds neg : becomes w (zlen ds) 0 -> parse_digits_n w ds neg = Ok None.
Proof using Hw. intros W. unfold parse_digits_n. rewrite (becomes_narrow w Hw _ _ W). reflexivity. Qed.

Lemma magnitude_any zs ds t b neg r : Forall (fun c => c = ZERO) zs -> significant ds -> ends_numeral t -> becomes w (zlen ds) r ->
  exists x, read_magnitude_n w (gs (zs ++ ds ++ t) b) neg = Ok (stop_stream t (rev (zs ++ ds) ++ b), x) /\ outcome neg ds r x.
Proof using Hw.
  intros Hz (c & ds' & n & Es & Hn & Hc) Ht W. apply ends_starts in Ht. apply numeral_iff in Hn as (_ & Hd & _). subst ds.
  unfold read_magnitude_n. rewrite skip_zeros_ok; auto.
  2:{ cbn [rest gs]. rewrite app_length. lia. }
  2:{ cbn [app starts]. destruct (Ascii.eqb c ZERO) eqn:E; auto. apply Ascii.eqb_eq in E. elim Hc. exact E. }
  rewrite bind_ok. cbn [app stop_stream rest gs]. change (c :: ds' ++ t) with ((c :: ds') ++ t). rewrite read_digits_ok; auto.
  2:{ rewrite !app_length. cbn [length]. lia. }
  rewrite bind_ok. cbn [app]. rewrite rev_app_distr, <- app_assoc.
  destruct (Ztrichotomy r 0) as [H|[H|H]].
  - rewrite (parse_neg _ _ _ W H), bind_ok. eexists. split; [reflexivity|]. left. auto.
  - subst r. rewrite (parse_zero _ _ W), bind_ok. exists (mkInt [0] false). split; [|right; left; auto]. change (set_value 0) with (Ok (mkInt [0] false)). rewrite bind_ok.
    f_equal. f_equal. destruct t; reflexivity.
  - destruct (parse_pos c ds' neg r Hd Hc W) as (x & E & Cx & Vx); [lia|]. rewrite E, bind_ok. exists x. split; [reflexivity|]. right. right. split; [lia|]. split; [exact Cx|].
    exists (nv 0 (firstn (Z.to_nat r) (c :: ds'))). split; [|exact Vx]. apply numeral_iff. splits; auto.
    + destruct (Z.to_nat r) eqn:En; [lia|discriminate].
    + apply Forall_firstn_; auto.
Qed.
Theorem Int_read_any s this neg zs ds t r : good s = true -> rest s = sign_text neg ++ zs ++ ds ++ t -> Forall (fun c => c = ZERO) zs -> significant ds -> ends_numeral t -> becomes w (zlen ds) r ->
  exists x, Int_read_n w s this = Ok (stop_stream t (rev (sign_text neg ++ zs ++ ds) ++ back s), x) /\ outcome neg ds r x.
Proof using Hw.
  intros Hg Hrs Hz Hs Ht W. rewrite (good_gs s Hg). rewrite Hrs. unfold Int_read_n, sentry. change (good (gs _ (back s))) with true. cbn [negb back gs].
  assert (Hc : exists c l, zs ++ ds ++ t = c :: l /\ isdigit c = true).
  { destruct zs as [|z zs]; [|inversion Hz; subst; cbn; eauto]. destruct Hs as (c & ds' & n & -> & Hn & _). apply numeral_iff in Hn as (_ & Hd & _). inversion Hd; subst. cbn. eauto. }
  destruct Hc as (c & l & El & Hc). destruct neg; cbn [sign_text app].
  - rewrite peek_cons. cbn [is_char]. change (Ascii.eqb _ MINUS) with true. cbv iota. rewrite get_cons. cbn [snd]. rewrite El, peek_cons. cbn [isdigit_opt]. rewrite Hc, <- El.
    destruct (magnitude_any zs ds t ("-"%char :: back s) true r Hz Hs Ht W) as (x & E & O). rewrite E. exists x. split; [|exact O]. cbn [rev]. rewrite <- (app_assoc _ ["-"%char]). reflexivity.
  - rewrite El, peek_cons. cbn [is_char]. rewrite digit_not_minus by auto. rewrite peek_cons. cbn [isdigit_opt]. rewrite Hc, <- El. apply magnitude_any; auto.
Qed.
Theorem Int_of_string_any neg zs ds r : Forall (fun c => c = ZERO) zs -> significant ds -> becomes w (zlen ds) r ->
  exists x, Int_of_string_n w (sign_text neg ++ zs ++ ds) = Ok x /\ outcome neg ds r x.
Proof using Hw.
  intros Hz Hs W. unfold Int_of_string_n.
  destruct (Int_read_any (istream_of (sign_text neg ++ zs ++ ds)) (mkInt [] false) neg zs ds [] r) as (x & E & O); auto.
  - cbn. rewrite app_nil_r. reflexivity.
  - exact I.
  - rewrite E, bind_ok. exists x. split; [reflexivity|exact O].
Qed.
(** all zeros: as before *)
Lemma magnitude_zeros zs t b neg : zs <> [] -> Forall (fun c => c = ZERO) zs -> ends_numeral t ->
  read_magnitude_n w (gs (zs ++ t) b) neg = Ok (stop_stream t (rev zs ++ b), mkInt [0] false).
Proof using Hw.
  intros Hne Hz Ht. apply ends_starts in Ht. unfold read_magnitude_n. rewrite skip_zeros_ok; auto.
  2:{ cbn [rest gs]. rewrite app_length. lia. }
  2:{ destruct t as [|c t]; auto. cbn in *. destruct (Ascii.eqb c ZERO) eqn:E; auto. apply Ascii.eqb_eq in E as ->. discriminate. }
  assert (P0 : parse_digits_n w [] neg = Ok None).
  { apply parse_zero. pose proof (half_range w Hw). split; [lia|]. exists 0. reflexivity. }
  rewrite bind_ok. destruct t as [|c t].
  - cbn [stop_stream read_digits rest]. unfold peek, sentry. cbn [good eofbit failbit badbit orb negb isdigit_opt]. rewrite bind_ok, P0. reflexivity.
  - cbn [stop_stream]. change (gs (c :: t) (rev zs ++ b)) with (gs ([] ++ c :: t) (rev zs ++ b)). rewrite read_digits_ok; [|cbn [length]; apply Nat.lt_0_succ|constructor|exact Ht]. rewrite bind_ok. cbn [app]. rewrite P0. reflexivity.
Qed.
(** a text that is no integer is refused, whatever its length *)
Lemma digit_text p z : int_text p z -> exists neg zs ds, p = sign_text neg ++ zs ++ ds /\ Forall (fun c => c = ZERO) zs /\ (ds = [] /\ zs <> [] \/ significant ds).
Proof.
  intros H. destruct H as [l n Hn|l n Hn]; destruct (split_zeros l) as (zs & r & -> & Hz & Hr); apply numeral_iff in Hn as (Hne & Hd & _).
  - exists false, zs, r. split; [reflexivity|]. split; [exact Hz|]. destruct r as [|c r]; [left; split; auto; rewrite app_nil_r in Hne; auto|right].
    exists c, r, (nv 0 (c :: r)). split; auto. split; [apply numeral_iff; splits; auto; [discriminate|apply Forall_app in Hd; tauto]|]. intros ->. discriminate.
  - exists true, zs, r. split; [reflexivity|]. split; [exact Hz|]. destruct r as [|c r]; [left; split; auto; rewrite app_nil_r in Hne; auto|right].
    exists c, r, (nv 0 (c :: r)). split; auto. split; [apply numeral_iff; splits; auto; [discriminate|apply Forall_app in Hd; tauto]|]. intros ->. discriminate.
Qed.
Lemma Int_read_zeros s this neg zs t : good s = true -> rest s = sign_text neg ++ zs ++ t -> zs <> [] -> Forall (fun c => c = ZERO) zs -> ends_numeral t ->
  Int_read_n w s this = Ok (stop_stream t (rev (sign_text neg ++ zs) ++ back s), mkInt [0] false).
Proof using Hw.
  intros Hg Hrs Hne Hz Ht. rewrite (good_gs s Hg). rewrite Hrs. unfold Int_read_n, sentry. change (good (gs _ (back s))) with true. cbn [negb back gs].
  assert (Hc : exists c l, zs ++ t = c :: l /\ isdigit c = true).
  { destruct zs as [|z zs]; [contradiction|inversion Hz; subst; cbn; eauto]. }
  destruct Hc as (c & l & El & Hc). destruct neg; cbn [sign_text app].
  - rewrite peek_cons. cbn [is_char]. change (Ascii.eqb _ MINUS) with true. cbv iota. rewrite get_cons. cbn [snd]. rewrite El, peek_cons. cbn [isdigit_opt]. rewrite Hc, <- El.
    rewrite magnitude_zeros by auto. cbn [rev]. rewrite <- (app_assoc _ ["-"%char]). reflexivity.
  - rewrite El, peek_cons. cbn [is_char]. rewrite digit_not_minus by auto. rewrite peek_cons. cbn [isdigit_opt]. rewrite Hc, <- El. apply magnitude_zeros; auto.
Qed.
Lemma Int_read_n_fail s this : good s = true -> no_int_prefix (rest s) ->
  Int_read_n w s this = Ok (mkIn (rest s) (back s) (match rest s with [] => true | _ => false end) true false, this).
Proof.
  intros Hg Hn. apply no_prefix_iff in Hn. rewrite (good_gs s Hg). cbn [rest back gs]. 
  unfold Int_read_n, sentry. change (good (gs (rest s) (back s))) with true. cbn [negb].
  destruct (rest s) as [|c r]; [reflexivity|].
  rewrite peek_cons. cbn [is_char]. cbn [after_sign] in Hn.
  destruct (Ascii.eqb c MINUS) eqn:Ec.
  - rewrite get_cons. cbn [snd]. destruct r as [|d r].
    + rewrite peek_nil. reflexivity.
    + rewrite peek_cons. cbn [isdigit_opt]. cbn in Hn. rewrite Hn. reflexivity.
  - rewrite peek_cons. cbn [isdigit_opt]. cbn in Hn. rewrite Hn. reflexivity.
Qed.
Theorem Int_of_string_refuses t : (forall z, ~ int_text t z) -> Int_of_string_n w t = Throw InvalidArgument.
Proof using Hw.
  intros H. unfold Int_of_string_n. destruct (int_prefix_dec t) as [Hn|(p & q & z & E & Hp & Hq)].
  - rewrite Int_read_n_fail by auto. rewrite bind_ok. reflexivity.
  - destruct q as [|c q]; [exfalso; apply (H z); rewrite E, app_nil_r; auto|].
    destruct (digit_text p z Hp) as (neg & zs & ds & Ep & Hz & [[Ed Hne]|Hs]); subst.
    + rewrite app_nil_r. rewrite (Int_read_zeros _ _ neg zs (c :: q)); auto. cbn. rewrite <- app_assoc. reflexivity.
    + destruct (Int_read_any (istream_of ((sign_text neg ++ zs ++ ds) ++ c :: q)) (mkInt [] false) neg zs ds (c :: q) (narrow (zlen ds))) as (x & Er & _); auto.
      * cbn. rewrite <- !app_assoc. reflexivity.
      * apply narrow_becomes. exact Hw.
      * rewrite Er. reflexivity.
Qed.
End Width.
