(** Proofs about reading and printing Ints. *)
From Coq Require Import Ascii String ZifyBool.
From Verif Require Import Base IntModel IntSpec IntBasics IntAddSub IntMul IntDiv IntMod IOModel IOSpec.
Local Open Scope list_scope.

(** *** Digits and numerals *)
Lemma digit_of_spec c : digit_of c = if isdigit c then Some (digit_val c) else None.
Proof. destruct c as [[] [] [] [] [] [] [] []]; reflexivity. Qed.
Lemma digit_val_range c : isdigit c = true -> 0 <= digit_val c <= 9.
Proof. unfold isdigit, digit_val. lia. Qed.
Lemma isdigit_digit_char d : 0 <= d <= 9 -> isdigit (digit_char d) = true /\ digit_val (digit_char d) = d.
Proof.
  intros H. unfold isdigit, digit_val, code, digit_char. rewrite N_ascii_embedding by lia. lia.
Qed.
Lemma digit_char_zero d : 0 <= d <= 9 -> (digit_char d = ZERO <-> d = 0).
Proof.
  intros H. split; [|intros ->; reflexivity].
  intros E. destruct (isdigit_digit_char d H) as [_ H1]. rewrite E in H1. change (digit_val ZERO) with 0 in H1. lia.
Qed.
Lemma isdigit_minus : isdigit MINUS = false. Proof. reflexivity. Qed.
Lemma digit_val_zero c : isdigit c = true -> digit_val c = 0 -> c = ZERO.
Proof. destruct c as [[] [] [] [] [] [] [] []]; cbv; congruence. Qed.

Definition digits (ds : chars) : Prop := Forall (fun c => isdigit c = true) ds.
Definition nv (a : Z) (ds : chars) : Z := fold_left (fun a c => 10 * a + digit_val c) ds a.
Lemma nv_app a x y : nv a (x ++ y) = nv (nv a x) y.
Proof. unfold nv. apply fold_left_app. Qed.
Definition p10 (n : nat) : Z := 10 ^ Z.of_nat n.
Lemma p10_S n : p10 (S n) = 10 * p10 n.
Proof. unfold p10. rewrite Nat2Z.inj_succ, Z.pow_succ_r; lia. Qed.
Lemma p10_pos n : 0 < p10 n. Proof. apply Z.pow_pos_nonneg; lia. Qed.
Lemma p10_add n m : p10 (n + m) = p10 n * p10 m.
Proof. unfold p10. rewrite Nat2Z.inj_add, Z.pow_add_r; lia. Qed.
Lemma nv_lin ds : forall a, nv a ds = a * p10 (length ds) + nv 0 ds.
Proof.
  induction ds as [|c ds IH]; intros a; cbn [nv fold_left length].
  - rewrite Z.mul_1_r. lia.
  - change (nv (10 * a + digit_val c) ds = a * p10 (S (length ds)) + nv (10 * 0 + digit_val c) ds).
    rewrite IH, (IH (10 * 0 + _)), p10_S. lia.
Qed.
Lemma nv_cons c ds : nv 0 (c :: ds) = digit_val c * p10 (length ds) + nv 0 ds.
Proof. change (nv (10 * 0 + digit_val c) ds = digit_val c * p10 (length ds) + nv 0 ds). rewrite nv_lin. lia. Qed.
Lemma nv_app0 x y : nv 0 (x ++ y) = nv 0 x * p10 (length y) + nv 0 y.
Proof. rewrite nv_app, nv_lin. reflexivity. Qed.
Lemma nv_bound ds : digits ds -> 0 <= nv 0 ds < p10 (length ds).
Proof.
  induction 1 as [|c ds Hc Hd IH].
  - cbn. unfold p10. cbn. lia.
  - rewrite nv_cons. cbn [length]. rewrite p10_S. pose proof (digit_val_range c Hc).
    pose proof (p10_pos (length ds)). nia.
Qed.
Lemma nv_lead c ds : digits (c :: ds) -> c <> ZERO -> p10 (length ds) <= nv 0 (c :: ds).
Proof.
  intros Hd Hc. inversion Hd; subst. rewrite nv_cons.
  pose proof (digit_val_range c H1). pose proof (nv_bound ds H2).
  assert (digit_val c <> 0) by (intros E; apply Hc, digit_val_zero; auto).
  pose proof (p10_pos (length ds)). nia.
Qed.

Lemma numeral_iff ds n : numeral ds n <-> (ds <> [] /\ digits ds /\ n = nv 0 ds).
Proof.
  split.
  - induction 1 as [c d H|ds c n d H IH Hc].
    + rewrite digit_of_spec in H. destruct (isdigit c) eqn:E; [|discriminate]. injection H as <-.
      splits; [discriminate|repeat constructor; auto|]. unfold nv; cbn [fold_left]. lia.
    + destruct IH as (H1 & H2 & ->).
      rewrite digit_of_spec in Hc. destruct (isdigit c) eqn:E; [|discriminate]. injection Hc as <-.
      splits.
      * destruct ds; discriminate.
      * apply Forall_app; auto.
      * rewrite nv_app. reflexivity.
  - intros (H1 & H2 & ->). induction ds as [|c ds IH] using rev_ind; [congruence|].
    apply Forall_app in H2 as [H2 H3]. inversion H3; subst.
    assert (Hd : digit_of c = Some (digit_val c)) by (rewrite digit_of_spec; rewrite H4; auto).
    destruct ds as [|c' ds].
    + change (nv 0 ([] ++ [c])) with (10 * 0 + digit_val c).
      replace (10 * 0 + digit_val c) with (digit_val c) by lia.
      constructor; auto.
    + rewrite nv_app. change (nv (nv 0 (c' :: ds)) [c]) with (10 * nv 0 (c' :: ds) + digit_val c).
      constructor; auto. apply IH; auto. discriminate.
Qed.

(** Equal-length digit strings with the same value are equal. *)
Lemma nv_inj a : forall b, length a = length b -> digits a -> digits b -> nv 0 a = nv 0 b -> a = b.
Proof.
  induction a as [|c a IH]; intros [|d b] Hl Ha Hb E; try discriminate; auto.
  inversion Ha; inversion Hb; subst. injection Hl as Hl.
  rewrite !nv_cons, Hl in E.
  pose proof (nv_bound a H2). pose proof (nv_bound b H6). rewrite Hl in H.
  pose proof (p10_pos (length b)).
  assert (digit_val c = digit_val d) by nia.
  f_equal; [|apply IH; auto; nia].
  assert (Hc : forall c, isdigit c = true -> c = digit_char (digit_val c)).
  { clear. intros c. destruct c as [[] [] [] [] [] [] [] []]; cbv; congruence. }
  rewrite (Hc c), (Hc d), H4; auto.
Qed.
Lemma lead_unique c a d b : digits (c :: a) -> digits (d :: b) -> c <> ZERO -> d <> ZERO ->
  nv 0 (c :: a) = nv 0 (d :: b) -> c :: a = d :: b.
Proof.
  intros Ha Hb Hc Hd E. apply nv_inj; auto. cbn [length]. f_equal.
  pose proof (nv_lead c a Ha Hc). pose proof (nv_lead d b Hb Hd).
  pose proof (nv_bound _ Ha). pose proof (nv_bound _ Hb). cbn [length] in *.
  destruct (lt_eq_lt_dec (length a) (length b)) as [[L|L]|L]; auto; exfalso.
  - assert (p10 (S (length a)) <= p10 (length b)) by (apply Z.pow_le_mono_r; lia). lia.
  - assert (p10 (S (length b)) <= p10 (length a)) by (apply Z.pow_le_mono_r; lia). lia.
Qed.
(** Every integer has exactly one canonical text. *)
Lemma canonical_text_unique s1 s2 z : canonical_text s1 z -> canonical_text s2 z -> s1 = s2.
Proof.
  assert (P : forall c ds n, numeral (c :: ds) n -> c <> ZERO -> 0 < n).
  { intros c ds n H Hc. apply numeral_iff in H as (_ & Hd & ->).
    pose proof (nv_lead c ds Hd Hc). pose proof (p10_pos (length ds)). lia. }
  intros H1 H2; destruct H1 as [|c ds n Hn Hc|c ds n Hn Hc]; inversion H2 as [|c' ds' n' Hn' Hc'|c' ds' n' Hn' Hc']; subst; auto;
   pose proof (fun c ds n => P c ds n) as P';
   try (specialize (P _ _ _ Hn Hc)); try (specialize (P' _ _ _ Hn' Hc')); try lia.
  - apply numeral_iff in Hn as (_ & ? & ->), Hn' as (_ & ? & E). apply lead_unique; auto.
  - apply numeral_iff in Hn as (_ & ? & ->), Hn' as (_ & ? & ->). f_equal. apply lead_unique; auto. lia.
Qed.

(** *** The chunked parser *)
Lemma take_digits_exact n : forall ss, digits (firstn n ss) -> (n <= length ss)%nat ->
  take_digits n ss = (firstn n ss, skipn n ss).
Proof.
  induction n as [|n IH]; intros ss Hd Hl; [reflexivity|].
  destruct ss as [|c ss]; cbn [length] in Hl; [lia|]. cbn [firstn] in Hd. inversion Hd; subst.
  cbn [take_digits]. rewrite H1, IH by (auto; lia). reflexivity.
Qed.
Lemma parse_int_ok ss k : digits (firstn (Z.to_nat k) ss) -> 1 <= k <= 9 -> k <= Z.of_nat (length ss) ->
  parse_int ss k = Ok (nv 0 (firstn (Z.to_nat k) ss), skipn (Z.to_nat k) ss) /\
  0 <= nv 0 (firstn (Z.to_nat k) ss) < 10 ^ k.
Proof.
  intros Hd Hk Hl. unfold parse_int. rewrite take_digits_exact by (auto; lia).
  pose proof (nv_bound _ Hd) as Hb. rewrite firstn_length_le in Hb by lia.
  unfold p10 in Hb. rewrite Z2Nat.id in Hb by lia.
  split; auto.
  assert (10 ^ k <= 10 ^ 9) by (apply Z.pow_le_mono_r; lia). change (10 ^ 9) with B in H.
  destruct (firstn (Z.to_nat k) ss) as [|c d] eqn:E.
  - apply (f_equal (@length _)) in E. rewrite firstn_length_le in E by lia. cbn in E. lia.
  - unfold extract_int32. change (fold_left _ (c :: d) 0) with (nv 0 (c :: d)).
    replace (nv 0 (c :: d) <=? INT32_MAX) with true by (unfold INT32_MAX; lia). reflexivity.
Qed.

Lemma p10_pw m : p10 (9 * m) = pw m.
Proof. unfold p10, pw. rewrite Nat2Z.inj_mul, Z.pow_mul_r by lia. reflexivity. Qed.

Lemma read_bins_ok m : forall fuel ss count n bs, (m < fuel)%nat -> length ss = (9 * m)%nat -> digits ss ->
  n = count + Z.of_nat (length ss) -> 
  exists cs, read_bins fuel ss count n bs = Ok (cs ++ bs) /\ length cs = m /\ Forall digit_ok cs /\
    bins_val cs = nv 0 ss.
Proof.
  induction m as [|m IH]; intros fuel ss count n bs Hf Hl Hd Hn.
  - destruct ss; [|cbn in Hl; lia]. destruct fuel; [lia|]. cbn [read_bins].
    replace (count <? n) with false by (cbn in Hn; lia). exists []. splits; auto.
  - destruct fuel; [lia|]. cbn [read_bins].
    replace (count <? n) with true by lia.
    assert (Hd1 : digits (firstn 9 ss)) by (apply Forall_firstn_; auto).
    destruct (parse_int_ok ss BIN_WIDTH) as [E Hv]; [exact Hd1|unfold BIN_WIDTH; lia|unfold BIN_WIDTH; lia|].
    rewrite E, bind_ok. change (Z.to_nat BIN_WIDTH) with 9%nat in *.
    assert (Hl' : length (skipn 9 ss) = (9 * m)%nat) by (rewrite skipn_length; lia).
    destruct (IH fuel (skipn 9 ss) (count + BIN_WIDTH) n (nv 0 (firstn 9 ss) :: bs)) as (cs & Hr & Hlc & Hdc & Hvc);
      [lia|auto|apply Forall_skipn_; auto|rewrite Hl', Hn, Hl; unfold BIN_WIDTH; lia|].
    exists (cs ++ [nv 0 (firstn 9 ss)]). splits.
    + rewrite Hr, <- app_assoc. reflexivity.
    + rewrite app_length; cbn; lia.
    + apply Forall_app. split; auto.
    + rewrite bins_val_app, Hlc, Hvc. cbn [bins_val].
      rewrite <- (firstn_skipn 9 ss) at 3. rewrite nv_app0, Hl', p10_pw. lia.
Qed.

(** The digits without leading zero give the canonical bins. *)
Definition parse_digits (ds : chars) : res (list Z) :=
  let num_digits := Z.of_nat (length ds) in
  let k := Z.rem num_digits BIN_WIDTH in
  '(bs, ss, count) <- (if k >? 0 then '(n, ss) <- parse_int ds k ;; Ok ([n], ss, k)
                       else Ok ([], ds, 0)) ;;
  read_bins (S (length ds)) ss count num_digits bs.
Lemma parse_digits_ok c ds : digits (c :: ds) -> c <> ZERO ->
  exists bs, parse_digits (c :: ds) = Ok bs /\ Forall digit_ok bs /\ trimmed bs /\ bins_val bs = nv 0 (c :: ds).
Proof.
  intros Hd Hc. unfold parse_digits.
  remember (c :: ds) as ss eqn:Es.
  assert (Hlen : (1 <= length ss)%nat) by (rewrite Es; cbn; lia).
  assert (Hlead : p10 (length ss - 1) <= nv 0 ss).
  { rewrite Es. cbn [length]. rewrite Nat.sub_0_r || idtac. replace (S (length ds) - 1)%nat with (length ds) by lia.
    apply nv_lead; auto. rewrite <- Es; auto. }
  set (k := Z.rem (Z.of_nat (length ss)) BIN_WIDTH).
  set (m := (length ss / 9)%nat).
  assert (Hkm : Z.of_nat (length ss) = k + 9 * Z.of_nat m /\ 0 <= k < 9).
  { unfold k, m, BIN_WIDTH. rewrite Nat2Z.inj_div. ldiv. }
  destruct (k >? 0) eqn:Ek.
  - destruct (parse_int_ok ss k) as [E Hv]; [apply Forall_firstn_; auto|lia|lia|].
    rewrite E, bind_ok. cbn [bind].
    assert (Hl' : length (skipn (Z.to_nat k) ss) = (9 * m)%nat) by (rewrite skipn_length; lia).
    destruct (read_bins_ok m (S (length ss)) (skipn (Z.to_nat k) ss) k (Z.of_nat (length ss)) [nv 0 (firstn (Z.to_nat k) ss)])
      as (cs & Hr & Hlc & Hdc & Hvc); [lia|auto|apply Forall_skipn_; auto|lia|].
    assert (Hval : bins_val (cs ++ [nv 0 (firstn (Z.to_nat k) ss)]) = nv 0 ss).
    { rewrite bins_val_app, Hlc, Hvc. cbn [bins_val].
      rewrite <- (firstn_skipn (Z.to_nat k) ss) at 3. rewrite nv_app0, Hl', p10_pw. lia. }
    exists (cs ++ [nv 0 (firstn (Z.to_nat k) ss)]). splits; auto.
    + apply Forall_app. split; auto. constructor; auto. unfold digit_ok.
      assert (10 ^ k <= 10 ^ 9) by (apply Z.pow_le_mono_r; lia). change (10 ^ 9) with B in H. lia.
    + apply trimmed_app_nz. intros E0. 
      rewrite bins_val_app, Hlc, Hvc, E0 in Hval. cbn [bins_val] in Hval.
      pose proof (nv_bound (skipn (Z.to_nat k) ss)) as Hb. rewrite Hl' in Hb.
      assert (p10 (9 * m) <= p10 (length ss - 1)) by (apply Z.pow_le_mono_r; lia).
      assert (digits (skipn (Z.to_nat k) ss)) by (apply Forall_skipn_; auto). specialize (Hb H0). lia.
  - cbn [bind].
    destruct (read_bins_ok m (S (length ss)) ss 0 (Z.of_nat (length ss)) [])
      as (cs & Hr & Hlc & Hdc & Hvc); [lia|lia|auto|lia|].
    exists cs. rewrite app_nil_r in Hr. splits; auto.
    apply trimmed_of_lower; auto; [destruct cs; cbn in *; [lia|discriminate]|].
    intros _. rewrite Hvc, Hlc. transitivity (p10 (length ss - 1)); auto.
    rewrite <- p10_pw. apply Z.pow_le_mono_r; lia.
Qed.

(** *** Stream loops *)
Lemma good_bits s : good s = true <-> (eofbit s = false /\ failbit s = false /\ badbit s = false).
Proof. unfold good. destruct (eofbit s), (failbit s), (badbit s); cbn; intuition discriminate. Qed.
Definition gs (r b : chars) : istream := mkIn r b false false false.
Lemma good_gs s : good s = true -> s = gs (rest s) (back s).
Proof. intros H. apply good_bits in H as (? & ? & ?). destruct s; cbn in *; subst; reflexivity. Qed.

Lemma peek_cons c r b : peek (gs (c :: r) b) = (Some c, gs (c :: r) b).
Proof. reflexivity. Qed.
Lemma peek_nil b : peek (gs [] b) = (None, mkIn [] b true false false).
Proof. reflexivity. Qed.
Lemma get_cons c r b : get (gs (c :: r) b) = (Some c, gs r (c :: b)).
Proof. reflexivity. Qed.

(** What is left when the loop over characters satisfying p stops. *)
Definition stop_stream (t b : chars) : istream :=
  match t with [] => mkIn [] b true false false | _ => gs t b end.
Definition starts (p : ascii -> bool) (t : chars) : bool := match t with [] => false | c :: _ => p c end.

Lemma skip_zeros_ok zs : forall fuel t b, (length zs < fuel)%nat -> Forall (fun c => c = ZERO) zs ->
  starts (fun c => Ascii.eqb c ZERO) t = false ->
  skip_zeros fuel (gs (zs ++ t) b) = Ok (stop_stream t (rev zs ++ b)).
Proof.
  induction zs as [|z zs IH]; intros fuel t b Hf Hz Ht; (destruct fuel as [|fuel]; [cbn in Hf; lia|]).
  - cbn [app rev]. cbn [skip_zeros]. destruct t as [|c t].
    + rewrite peek_nil. reflexivity.
    + rewrite peek_cons. cbn [is_char]. cbn in Ht. rewrite Ht. reflexivity.
  - inversion Hz; subst. cbn [app]. cbn [skip_zeros]. rewrite peek_cons. cbn [is_char].
    change (Ascii.eqb ZERO ZERO) with true. rewrite get_cons. cbn [snd fst].
    rewrite IH by (auto; cbn in Hf; lia). cbn [rev]. rewrite <- app_assoc. reflexivity.
Qed.
Lemma read_digits_ok ds : forall fuel t b acc, (length ds < fuel)%nat -> digits ds ->
  starts isdigit t = false ->
  read_digits fuel (gs (ds ++ t) b) acc = Ok (stop_stream t (rev ds ++ b), acc ++ ds).
Proof.
  induction ds as [|c ds IH]; intros fuel t b acc Hf Hd Ht; (destruct fuel as [|fuel]; [cbn in Hf; lia|]).
  - cbn [app rev]. cbn [read_digits]. rewrite app_nil_r. destruct t as [|c t].
    + rewrite peek_nil. reflexivity.
    + rewrite peek_cons. cbn [isdigit_opt]. cbn in Ht. rewrite Ht. reflexivity.
  - inversion Hd; subst. cbn [app]. cbn [read_digits]. rewrite peek_cons. cbn [isdigit_opt].
    rewrite H1, get_cons.
    rewrite IH by (auto; cbn in Hf; lia). cbn [rev]. rewrite <- !app_assoc. reflexivity.
Qed.

Lemma split_zeros ds : exists zs r, ds = zs ++ r /\ Forall (fun c => c = ZERO) zs /\
  starts (fun c => Ascii.eqb c ZERO) r = false.
Proof.
  induction ds as [|c ds (zs & r & E & Hz & Hr)].
  - exists [], []. splits; auto.
  - destruct (Ascii.eqb c ZERO) eqn:Ec.
    + apply Ascii.eqb_eq in Ec as ->. exists (ZERO :: zs), r. splits; subst; auto. 
    + exists [], (c :: ds). splits; auto.
Qed.
Lemma nv_zeros zs : Forall (fun c => c = ZERO) zs -> nv 0 zs = 0.
Proof.
  induction zs as [|c zs IH]; intros H; [reflexivity|]. inversion H; subst. rewrite nv_cons, IH by auto.
  change (digit_val ZERO) with 0. lia.
Qed.

(** After the sign: all digits are consumed and the canonical Int is stored. *)
Lemma read_magnitude_ok ds t b neg : ds <> [] -> digits ds -> starts isdigit t = false ->
  exists x, read_magnitude (gs (ds ++ t) b) neg = Ok (stop_stream t (rev ds ++ b), x) /\
    canonical x /\ val x = if neg : bool then - nv 0 ds else nv 0 ds.
Proof.
  intros Hne Hd Ht.
  destruct (split_zeros ds) as (zs & r & E & Hz & Hr). subst ds.
  apply Forall_app in Hd as [Hdz Hdr].
  unfold read_magnitude. rewrite <- !app_assoc.
  assert (Htz : starts (fun c => Ascii.eqb c ZERO) (r ++ t) = false).
  { destruct r; auto. cbn [app]. destruct t as [|c t]; auto. cbn in *.
    destruct (Ascii.eqb c ZERO) eqn:E; auto. apply Ascii.eqb_eq in E as ->. discriminate. }
  rewrite skip_zeros_ok; auto.
  2:{ cbn [rest gs]. rewrite app_length. lia. }
  rewrite bind_ok. cbn [rest gs].
  assert (Hnv : nv 0 (zs ++ r) = nv 0 r) by (rewrite nv_app0, nv_zeros by auto; lia).
  destruct r as [|c r].
  - (* zero *)
    cbn [app] in *. rewrite Hnv. change (nv 0 []) with 0.
    exists (mkInt [0] false). splits; [|apply canonical_zero|destruct neg; reflexivity].
    rewrite app_nil_r.
    destruct t as [|c t].
    + cbn [stop_stream]. reflexivity.
    + cbn [stop_stream]. change (gs (c :: t) (rev zs ++ b)) with (gs ([] ++ c :: t) (rev zs ++ b)).
      rewrite read_digits_ok by (auto; cbn; lia).
      rewrite bind_ok. reflexivity.
  - replace (stop_stream ((c :: r) ++ t) (rev zs ++ b)) with (gs ((c :: r) ++ t) (rev zs ++ b)) by reflexivity.
    rewrite read_digits_ok; auto.
    2:{ rewrite !app_length. lia. }
    rewrite bind_ok. cbn [app].
    replace (Z.of_nat (length (c :: r)) =? 0) with false by (cbn [length]; lia).
    assert (Hc : c <> ZERO).
    { intros ->. discriminate. }
    destruct (parse_digits_ok c r Hdr Hc) as (bs & Hp & Hdb & Htb & Hvb).
    unfold parse_digits in Hp.
    match goal with |- context [bind ?m ?f] => destruct m as [[[bs0 ss0] ct0]| | | |] eqn:Em; try discriminate end.
    cbn [bind] in Hp |- *. rewrite Hp. cbn [bind].
    exists (mkInt bs neg). splits.
    + rewrite rev_app_distr, app_assoc. reflexivity.
    + apply mk_canonical; auto. intros _. rewrite Hvb. pose proof (nv_lead c r Hdr Hc). pose proof (p10_pos (length r)). lia.
    + unfold val; cbn [negative bins]. rewrite Hvb, Hnv. reflexivity.
Qed.

Lemma ends_starts t : ends_numeral t <-> starts isdigit t = false.
Proof.
  destruct t as [|c t]; cbn; [tauto|]. rewrite digit_of_spec. destruct (isdigit c); split; congruence.
Qed.
Lemma digit_not_minus c : isdigit c = true -> Ascii.eqb c MINUS = false.
Proof. intros H. destruct (Ascii.eqb c MINUS) eqn:E; auto. apply Ascii.eqb_eq in E as ->. discriminate. Qed.

(** Successful extraction. *)
Lemma Int_read_ok s p z t this : good s = true -> rest s = p ++ t -> int_text p z -> ends_numeral t ->
  exists x, Int_read s this = Ok (stop_stream t (rev p ++ back s), x) /\ canonical x /\ val x = z.
Proof.
  intros Hg Hr Hp Ht. rewrite (good_gs s Hg). rewrite Hr. apply ends_starts in Ht.
  unfold Int_read. cbn [sentry]. change (good (gs (p ++ t) (back s))) with true. cbn [negb].
  unfold sentry. change (good (gs (p ++ t) (back s))) with true. cbn [negb].
  destruct Hp as [ds n Hn|ds n Hn]; apply numeral_iff in Hn as (Hne & Hd & ->).
  - destruct ds as [|c ds]; [congruence|]. inversion Hd; subst.
    cbn [app back gs]. rewrite peek_cons. cbn [is_char]. rewrite digit_not_minus by auto.
    rewrite peek_cons. cbn [isdigit_opt]. rewrite H1.
    apply (read_magnitude_ok (c :: ds) t (back s) false); auto.
  - destruct ds as [|c ds]; [congruence|]. inversion Hd; subst.
    cbn [app back gs]. rewrite peek_cons. cbn [is_char]. change (Ascii.eqb _ MINUS) with true.
    cbn [andb]. rewrite get_cons. cbn [snd]. rewrite peek_cons. cbn [isdigit_opt]. rewrite H1.
    destruct (read_magnitude_ok (c :: ds) t (MINUS :: back s) true) as (x & E & Hc & Hv); auto.
    exists x. splits; auto. cbn [app] in E. change "-"%char with MINUS. rewrite E. cbn [rev]. rewrite <- !app_assoc. reflexivity.
Qed.

(** A character list either starts with an integer text or has none. *)
Lemma split_digits (s : chars) : exists ds t, s = ds ++ t /\ digits ds /\ starts isdigit t = false.
Proof.
  induction s as [|c s (ds & t & E & Hd & Ht)].
  - exists [], []. splits; auto. constructor.
  - destruct (isdigit c) eqn:Ec.
    + exists (c :: ds), t. splits; subst; auto. constructor; auto.
    + exists [], (c :: s). splits; auto. constructor.
Qed.
Definition after_sign (s : chars) : chars :=
  match s with c :: s' => if Ascii.eqb c MINUS then s' else s | [] => [] end.
Lemma no_prefix_iff s : no_int_prefix s <-> starts isdigit (after_sign s) = false.
Proof.
  split.
  - intros H. destruct (starts isdigit (after_sign s)) eqn:E; auto. exfalso.
    destruct s as [|c s]; [discriminate|]. cbn [after_sign] in E.
    destruct (Ascii.eqb c MINUS) eqn:Ec.
    + apply Ascii.eqb_eq in Ec as ->. destruct s as [|d s]; [discriminate|]. cbn in E.
      apply (H [MINUS; d] s (- digit_val d)); auto. apply it_neg. constructor. rewrite digit_of_spec, E. auto.
    + cbn in E. apply (H [c] s (digit_val c)); auto. apply it_pos. constructor. rewrite digit_of_spec, E. auto.
  - intros H p t z E Hp. destruct Hp as [ds n Hn|ds n Hn]; apply numeral_iff in Hn as (Hne & Hd & ->);
     (destruct ds as [|c ds]; [congruence|]); inversion Hd; subst; cbn [after_sign app] in H.
    + rewrite digit_not_minus in H by auto. cbn in H. congruence.
    + change (Ascii.eqb _ MINUS) with true in H. cbn in H. congruence.
Qed.
Lemma int_prefix_dec s : no_int_prefix s \/ exists p t z, s = p ++ t /\ int_text p z /\ ends_numeral t.
Proof.
  destruct (starts isdigit (after_sign s)) eqn:E; [|left; apply no_prefix_iff; auto].
  right. destruct s as [|c s]; [discriminate|]. cbn [after_sign] in E.
  destruct (Ascii.eqb c MINUS) eqn:Ec.
  - apply Ascii.eqb_eq in Ec as ->. destruct (split_digits s) as (ds & t & -> & Hd & Ht).
    exists (MINUS :: ds), t, (- nv 0 ds). splits; auto; [|apply ends_starts; auto].
    apply it_neg. apply numeral_iff. splits; auto. destruct ds; [|discriminate]. cbn in *. congruence.
  - destruct (split_digits (c :: s)) as (ds & t & Es & Hd & Ht).
    exists ds, t, (nv 0 ds). splits; auto; [|apply ends_starts; auto].
    apply it_pos. apply numeral_iff. splits; auto. destruct ds; [|discriminate]. cbn in *. subst t. cbn in Ht. congruence.
Qed.

(** Failed extraction. *)
Lemma Int_read_fail s this : good s = true -> no_int_prefix (rest s) ->
  Int_read s this = Ok (mkIn (rest s) (back s) (match rest s with [] => true | _ => false end) true false, this).
Proof.
  intros Hg Hn. apply no_prefix_iff in Hn. rewrite (good_gs s Hg). cbn [rest back gs]. 
  unfold Int_read, sentry. change (good (gs (rest s) (back s))) with true. cbn [negb].
  destruct (rest s) as [|c r]; [reflexivity|].
  rewrite peek_cons. cbn [is_char]. cbn [after_sign] in Hn.
  destruct (Ascii.eqb c MINUS) eqn:Ec.
  - rewrite get_cons. cbn [snd]. destruct r as [|d r].
    + rewrite peek_nil. reflexivity.
    + rewrite peek_cons. cbn [isdigit_opt]. cbn in Hn. rewrite Hn. reflexivity.
  - rewrite peek_cons. cbn [isdigit_opt]. cbn in Hn. rewrite Hn. reflexivity.
Qed.
Lemma Int_read_not_good s this : good s = false -> Int_read s this = Ok (set_fail s, this).
Proof. intros H. unfold Int_read, sentry. rewrite H. reflexivity. Qed.

(** Construction from a string. *)
Lemma int_text_unique s z1 z2 : int_text s z1 -> int_text s z2 -> z1 = z2.
Proof.
  intros H1 H2. destruct H1 as [ds n Hn|ds n Hn]; inversion H2 as [ds' n' Hn'|ds' n' Hn']; subst;
   apply numeral_iff in Hn as (? & Hd & ->), Hn' as (? & Hd' & ->); auto; inversion Hd; inversion Hd'; subst; discriminate.
Qed.
Lemma Int_of_string_ok s z : int_text s z -> exists x, Int_of_string s = Ok x /\ canonical x /\ val x = z.
Proof.
  intros H. unfold Int_of_string.
  destruct (Int_read_ok (istream_of s) s z [] (mkInt [] false)) as (x & E & Hc & Hv); auto.
  - cbn. rewrite app_nil_r. reflexivity.
  - exact I.
  - rewrite E, bind_ok. exists x. splits; auto.
Qed.
Lemma int_text_app p t z z' : int_text p z -> int_text (p ++ t) z' -> t <> [] -> ends_numeral t -> False.
Proof.
  intros H1 H2 Hne Ht. apply ends_starts in Ht. destruct t as [|c t]; [congruence|]. cbn in Ht.
  assert (forall ds n, numeral ds n -> forall x, ds = x ++ c :: t -> False).
  { intros ds n Hn x ->. apply numeral_iff in Hn as (_ & Hd & _). apply Forall_app in Hd as [_ Hd].
    inversion Hd; subst. congruence. }
  inversion H2 as [ds n Hn E|ds n Hn E]; subst; [apply (H _ _ Hn p); auto|].
  destruct H1 as [ds1 n1 Hn1|ds1 n1 Hn1].
  - apply numeral_iff in Hn1 as (Hne1 & Hd1 & ->). destruct ds1 as [|d1 ds1]; [congruence|].
    injection E as <- E. inversion Hd1; subst. discriminate.
  - injection E as E. apply (H _ _ Hn ds1); auto.
Qed.
Lemma Int_of_string_bad s : (forall z, ~ int_text s z) -> Int_of_string s = Throw InvalidArgument.
Proof.
  intros H. unfold Int_of_string.
  destruct (int_prefix_dec s) as [Hn|(p & t & z & E & Hp & Ht)].
  - rewrite Int_read_fail by auto. rewrite bind_ok. reflexivity.
  - destruct (Int_read_ok (istream_of s) p z t (mkInt [] false)) as (x & Er & Hc & Hv); auto.
    rewrite Er, bind_ok. destruct t as [|c t].
    + exfalso. apply (H z). rewrite E, app_nil_r. auto.
    + reflexivity.
Qed.

(** *** Printing *)
Lemma dec_aux_ok n : forall z, 0 <= z < p10 (S n) -> 
  digits (dec_aux (S n) z) /\ nv 0 (dec_aux (S n) z) = z /\ dec_aux (S n) z <> [] /\
  (length (dec_aux (S n) z) <= S n)%nat /\
  (z <> 0 -> exists c ds, dec_aux (S n) z = c :: ds /\ c <> ZERO) /\ (z = 0 -> dec_aux (S n) z = [ZERO]).
Proof.
  induction n as [|n IH]; intros z Hz.
  - cbn [dec_aux]. change (p10 1) with 10 in Hz. replace (z <? 10) with true by lia.
    destruct (isdigit_digit_char z) as [H1 H2]; [lia|].
    splits; try discriminate.
    + constructor; auto; constructor.
    + unfold nv; cbn [fold_left]. lia.
    + cbn; lia.
    + intros H. exists (digit_char z), []. split; auto. rewrite digit_char_zero; lia.
    + intros ->. reflexivity.
  - remember (S n) as m eqn:Em. cbn [dec_aux]. destruct (z <? 10) eqn:E.
    + destruct (isdigit_digit_char z) as [H1 H2]; [lia|].
      splits; try discriminate.
      * constructor; auto; constructor.
      * unfold nv; cbn [fold_left]. lia.
      * cbn; lia.
      * intros H. exists (digit_char z), []. split; auto. rewrite digit_char_zero; lia.
      * intros ->. reflexivity.
    + assert (Hq : Z.quot z 10 = z / 10) by (apply Z.quot_div_nonneg; lia).
      assert (Hr : Z.rem z 10 = z mod 10) by (apply Z.rem_mod_nonneg; lia).
      rewrite Hq, Hr.
      assert (Hzb : 0 <= z / 10 < p10 m) by (rewrite p10_S in Hz; ldiv).
      destruct (IH (z / 10) Hzb) as (H1 & H2 & H3 & H4 & H5 & _).
      destruct (isdigit_digit_char (z mod 10)) as [H6 H7]; [ldiv|].
      splits.
      * apply Forall_app. split; auto.
      * rewrite nv_app, H2. unfold nv; cbn [fold_left]. rewrite H7. ldiv.
      * destruct (dec_aux m (z / 10)); discriminate.
      * rewrite app_length. cbn [length]. lia.
      * intros _. destruct H5 as (c & ds & Hd & Hc); [ldiv|]. rewrite Hd. exists c, (ds ++ [digit_char (z mod 10)]). auto.
      * intros ->. lia.
Qed.
Lemma dec_int32_ok z : 0 <= z < B -> 
  digits (dec_int32 z) /\ nv 0 (dec_int32 z) = z /\ dec_int32 z <> [] /\ (length (dec_int32 z) <= 9)%nat /\
  (z <> 0 -> exists c ds, dec_int32 z = c :: ds /\ c <> ZERO) /\ (z = 0 -> dec_int32 z = [ZERO]).
Proof.
  intros Hz. unfold dec_int32. replace (z <? 0) with false by lia.
  destruct (dec_aux_ok 9 z) as (H1 & H2 & H3 & H4 & H5 & H6).
  { change (p10 10) with 10000000000. lia. }
  splits; auto.
  (* nine digits suffice *)
  destruct (Z.eq_dec z 0) as [->|Hnz]; [rewrite H6; cbn; lia|].
  destruct (H5 Hnz) as (c & ds & E & Hc). rewrite E in *.
  pose proof (nv_lead c ds H1 Hc). rewrite H2 in H. cbn [length] in *.
  destruct (Nat.eq_dec (length ds) 9) as [L|L]; [|lia].
  rewrite L in H. change (p10 9) with B in H. lia.
Qed.

Lemma repeat_zero_digits n : digits (repeat ZERO n) /\ nv 0 (repeat ZERO n) = 0.
Proof.
  split.
  - apply Forall_forall. intros c Hc. apply repeat_spec in Hc as ->. reflexivity.
  - apply nv_zeros. apply Forall_forall. intros c Hc. apply repeat_spec in Hc; auto.
Qed.
(** a bin below the top one prints as exactly nine digits *)
Lemma put_bin o b : 0 <= b < B -> exists t, put (setfill ZERO (setw BIN_WIDTH o)) (dec_int32 b) = mkOut (obuf o ++ t) 0 ZERO
   /\ length t = 9%nat /\ digits t /\ nv 0 t = b.
Proof.
  intros Hb. destruct (dec_int32_ok b Hb) as (H1 & H2 & H3 & H4 & _).
  destruct (repeat_zero_digits (9 - length (dec_int32 b))) as [H5 H6].
  eexists. unfold put, setfill, setw; cbn [obuf owidth ofill]. splits; [reflexivity|..].
  - change (Z.to_nat BIN_WIDTH) with 9%nat. rewrite app_length, repeat_length. lia.
  - apply Forall_app. split; auto.
  - change (Z.to_nat BIN_WIDTH) with 9%nat. rewrite nv_app0, H6, H2. lia.
Qed.
Lemma print_bins_ok r : forall o, Forall digit_ok r -> exists t,
  print_bins o r = (match r with [] => o | _ => mkOut (obuf o ++ t) 0 ZERO end) /\
  length t = (9 * length r)%nat /\ digits t /\ nv 0 t = bins_val (rev r).
Proof.
  induction r as [|b r IH]; intros o Hr.
  - exists []. splits; auto. constructor.
  - inversion Hr; subst. cbn [print_bins].
    destruct (put_bin o b H1) as (t1 & E1 & L1 & D1 & V1).
    rewrite E1. destruct (IH (mkOut (obuf o ++ t1) 0 ZERO) H2) as (t2 & E2 & L2 & D2 & V2).
    exists (t1 ++ t2). rewrite E2. splits.
    + destruct r; cbn [obuf].
      * cbn in L2. destruct t2; [|cbn in L2; lia]. rewrite app_nil_r. reflexivity.
      * rewrite app_assoc. reflexivity.
    + rewrite app_length. cbn [length]. lia.
    + apply Forall_app; auto.
    + cbn [rev]. rewrite bins_val_app, nv_app0, L2, p10_pw, V1, V2, rev_length. cbn [bins_val]. lia.
Qed.
Lemma skip_zero_bins_ok r : Forall digit_ok r -> exists n, r = repeat 0 n ++ skip_zero_bins r /\
  (skip_zero_bins r = [] \/ exists b r', skip_zero_bins r = b :: r' /\ b <> 0).
Proof.
  induction 1 as [|b r Hb Hr IH].
  - exists 0%nat. auto.
  - cbn [skip_zero_bins]. destruct (b =? 0) eqn:E.
    + destruct IH as (n & H1 & H2). exists (S n). split; auto. cbn [repeat app]. rewrite <- H1. f_equal. lia.
    + exists 0%nat. split; auto. right. exists b, r. split; auto. lia.
Qed.

(** Everything about printing a well-formed Int: the sign and the most
    significant bin are inserted with the stream's own width and fill, the other
    bins are appended as one block of nine digits each and leave '0' as fill. *)
Lemma Int_print_blocks o x : wf x ->
  let o1 := if negative x then put o [MINUS] else o in
  (aval x = 0 /\ Int_print o x = put o1 [ZERO]) \/
  (exists b t, (exists k, length t = 9 * k)%nat /\ 0 < b < B /\ digits t /\ aval x = b * p10 (length t) + nv 0 t /\
     (t = [] /\ aval x < B /\ Int_print o x = put o1 (dec_int32 b) \/
      t <> [] /\ B <= aval x /\ Int_print o x = mkOut (obuf (put o1 (dec_int32 b)) ++ t) 0 ZERO)).
Proof.
  intros [Hne Hd] o1. unfold Int_print. fold o1.
  destruct (skip_zero_bins_ok (rev (bins x))) as (n & E & Hs); [apply Forall_rev; auto|].
  assert (Hv : aval x = bins_val (rev (skip_zero_bins (rev (bins x))))).
  { unfold aval. rewrite <- (rev_involutive (bins x)) at 1. rewrite E at 1.
    rewrite rev_app_distr, bins_val_app, repeat_rev, bins_val_repeat. lia. }
  assert (Hdf : Forall digit_ok (skip_zero_bins (rev (bins x)))).
  { apply Forall_rev in Hd. rewrite E in Hd. apply Forall_app in Hd. tauto. }
  destruct Hs as [Hs|(b & r & Hs & Hb)]; rewrite Hs in *.
  - left. split; [rewrite Hv; reflexivity|reflexivity].
  - right. inversion Hdf; subst.
    destruct (print_bins_ok r (put o1 (dec_int32 b)) H2) as (t & Et & Lt & Dt & Vt).
    assert (Hval : aval x = b * p10 (length t) + nv 0 t).
    { rewrite Hv. cbn [rev]. rewrite bins_val_app, Lt, Vt, p10_pw, rev_length. cbn [bins_val]. lia. }
    exists b, t. unfold digit_ok in H1. splits; auto; [eauto|lia|lia|].
    rewrite Et. destruct r as [|b' r].
    + left. cbn in Lt. destruct t; [|cbn in Lt; lia]. splits; auto. rewrite Hval. cbn. unfold p10, nv; cbn. lia.
    + right. pose proof (nv_bound t Dt). splits; auto.
      * destruct t; [cbn in Lt; lia|discriminate].
      * rewrite Hval. assert (p10 9 <= p10 (length t)) by (apply Z.pow_le_mono_r; cbn [length] in Lt; lia).
        change (p10 9) with B in H0. nia.
Qed.
Lemma Int_print_gen o x : wf x ->
  let o1 := if negative x then put o [MINUS] else o in
  (aval x = 0 /\ Int_print o x = put o1 [ZERO]) \/
  (exists b t, 0 < b < B /\ digits t /\ aval x = b * p10 (length t) + nv 0 t /\
     (t = [] /\ aval x < B /\ Int_print o x = put o1 (dec_int32 b) \/
      t <> [] /\ B <= aval x /\ Int_print o x = mkOut (obuf (put o1 (dec_int32 b)) ++ t) 0 ZERO)).
Proof.
  intros Hx o1. destruct (Int_print_blocks o x Hx) as [H|(b & t & _ & H)]; [left; exact H|right; exists b, t; exact H].
Qed.

Lemma put0 b f t : put (mkOut b 0 f) t = mkOut (b ++ t) 0 f.
Proof. reflexivity. Qed.
(** The text printed with no field width. *)
Lemma Int_print_text x b f : wf x -> (val x = 0 -> negative x = false) ->
  exists s, canonical_text s (val x) /\
    Int_print (mkOut b 0 f) x = mkOut (b ++ s) 0 (if Z.abs (val x) <? B then f else ZERO).
Proof.
  intros Hx Hz. pose proof (abs_val x Hx) as Ha.
  destruct (Int_print_gen (mkOut b 0 f) x Hx) as [[H0 H]|(d & t & Hd & Ht & Hv & H)].
  - exists [ZERO]. assert (val x = 0) by lia. rewrite H1. split; [constructor|].
    rewrite H. rewrite (Hz H1). cbn [Z.abs]. rewrite put0. reflexivity.
  - destruct (dec_int32_ok d) as (D1 & D2 & D3 & D4 & D5 & _); [lia|].
    destruct D5 as (c & ds & Ed & Hc); [lia|].
    assert (Hnum : numeral ((c :: ds) ++ t) (aval x)).
    { apply numeral_iff. splits; [discriminate|rewrite <- Ed; apply Forall_app; auto|].
      rewrite nv_app0, <- Ed, D2. lia. }
    exists ((if negative x then [MINUS] else []) ++ (c :: ds) ++ t). split.
    + rewrite val_aval. destruct (negative x); cbn [app].
      * apply ct_neg; auto.
      * apply ct_pos; auto.
    + destruct H as [(-> & Hs & H)|(Hne & Hs & H)]; rewrite H, Ha.
      * replace (aval x <? B) with true by lia. rewrite Ed, app_nil_r.
        destruct (negative x); rewrite ?put0; rewrite <- ?app_assoc; reflexivity.
      * replace (aval x <? B) with false by lia. rewrite Ed.
        destruct (negative x); rewrite ?put0; cbn [obuf]; rewrite <- ?app_assoc; reflexivity.
Qed.
(** with any width *)
Lemma Int_print_exact x o : canonical x -> exists s, canonical_text s (val x) /\
  Int_print o x = mkOut (obuf o ++ repeat (ofill o) (Z.to_nat (owidth o) - (if (val x <? 0)%Z then 1 else (length s - 1) mod 9 + 1))%nat ++ s) 0
    (if Z.abs (val x) <? B then ofill o else ZERO).
Proof.
  intros Hx. pose proof (canonical_wf _ Hx) as Wx. pose proof (abs_val x Wx) as Ha.
  destruct (Int_print_blocks o x Wx) as [[H0 H]|(d & t & (k & Lt) & Hd & Ht & Hv & H)].
  - assert (V : val x = 0) by lia. exists [ZERO]. rewrite V. split; [constructor|].
    assert (Hn : negative x = false). { destruct Hx as (_ & _ & Hn). destruct (negative x); auto. exfalso; apply Hn; auto. }
    rewrite H, Hn. reflexivity.
  - destruct (dec_int32_ok d) as (D1 & D2 & D3 & D4 & D5 & _); [lia|].
    destruct D5 as (c & ds & Ed & Hc); [lia|].
    assert (Hnum : numeral ((c :: ds) ++ t) (aval x)).
    { apply numeral_iff. splits; [discriminate|rewrite <- Ed; apply Forall_app; auto|].
      rewrite nv_app0, <- Ed, D2. lia. }
    assert (A0 : 0 < aval x) by (rewrite Hv; pose proof (nv_bound t Ht); unfold p10; nia).
    exists ((if negative x then [MINUS] else []) ++ (c :: ds) ++ t). split.
    + rewrite val_aval. destruct (negative x); cbn [app]; [apply ct_neg|apply ct_pos]; auto.
    + assert (Hs : (if (val x <? 0)%Z then 1 else (length ((if negative x then [MINUS] else []) ++ (c :: ds) ++ t) - 1) mod 9 + 1)%nat
        = if negative x then 1%nat else length (c :: ds)).
      { rewrite val_aval. destruct (negative x).
        - replace (- aval x <? 0) with true by lia. reflexivity.
        - replace (aval x <? 0) with false by lia. cbn [app length]. rewrite app_length, Lt. rewrite Ed in D4. cbn [length] in D4.
          replace (S (length ds + 9 * k) - 1)%nat with (length ds + k * 9)%nat by lia. rewrite Nat.mod_add, Nat.mod_small by lia. lia. }
      rewrite Hs. rewrite Ed in H. destruct H as [(-> & Hb & H)|(Hne & Hb & H)]; rewrite H, Ha.
      * replace (aval x <? B) with true by lia. rewrite app_nil_r. destruct (negative x); unfold put; cbn [obuf owidth ofill]; f_equal.
        change (Z.to_nat 0 - length (c :: ds))%nat with 0%nat. cbn [repeat app length]. rewrite <- !app_assoc. reflexivity.
      * replace (aval x <? B) with false by lia. destruct (negative x); unfold put; cbn [obuf owidth ofill]; f_equal.
        -- change (Z.to_nat 0 - length (c :: ds))%nat with 0%nat. cbn [repeat app length]. rewrite <- !app_assoc. reflexivity.
        -- cbn [app]. rewrite <- !app_assoc. reflexivity.
Qed.
Lemma repeat_app_inj (f : ascii) a b s : repeat f a ++ s = repeat f b ++ s -> a = b.
Proof. intros H. apply (f_equal (@length ascii)) in H. rewrite !app_length, !repeat_length in H. lia. Qed.
Lemma canonical_text_length s z : canonical_text s z -> (0 < length s)%nat /\ (0 <= z -> (length s <= 9)%nat <-> z < B) /\ (z < 0 -> (2 <= length s)%nat).
Proof.
  assert (P : forall c ds n, numeral (c :: ds) n -> c <> ZERO -> 0 < n /\ ((length (c :: ds) <= 9)%nat <-> n < B)).
  { intros c ds n Hn Hc. apply numeral_iff in Hn as (_ & D & Hv). rewrite Hv. inversion D as [|? ? D1 D2]; subst.
    pose proof (nv_bound ds D2) as Hb. change (c :: ds) with ([c] ++ ds). rewrite nv_app0. unfold nv at 1 3. cbn [fold_left].
    assert (Dv : 1 <= digit_val c <= 9). { pose proof (digit_val_range c D1). assert (digit_val c <> 0) by (intros E; apply Hc, digit_val_zero; auto). lia. }
    cbn [app length]. split; [unfold p10 in *; nia|]. change B with (10 ^ 9). unfold p10 in *. split; intros L.
    - assert (10 ^ Z.of_nat (length ds) <= 10 ^ 8) by (apply Z.pow_le_mono_r; lia). nia.
    - destruct (Nat.le_gt_cases (S (length ds)) 9) as [|G]; auto. assert (10 ^ 9 <= 10 ^ Z.of_nat (length ds)) by (apply Z.pow_le_mono_r; lia). nia. }
  intros [|c ds n H Hc|c ds n H Hc].
  - cbn. split; [lia|]. split; [|lia]. intros _. lia.
  - destruct (P c ds n H Hc) as [P1 P2]. split; [cbn; lia|]. split; [auto|lia].
  - destruct (P c ds n H Hc) as [P1 P2]. split; [cbn; lia|]. split; [lia|cbn; lia].
Qed.
Lemma Int_print_builtin_iff x o : canonical x -> 0 <= owidth o ->
  ((exists s, canonical_text s (val x) /\ Int_print o x = put o s) <->
   (owidth o <= 1 \/ 0 <= val x < B \/ B <= val x /\ forall s, canonical_text s (val x) -> owidth o <= (Z.of_nat (length s) - 1) mod 9 + 1) /\
   (Z.abs (val x) < B \/ ofill o = ZERO)).
Proof.
  intros Hx Hw. destruct (Int_print_exact x o Hx) as (s & Hs & E). destruct (canonical_text_length s _ Hs) as (L0 & L1 & L2).
  set (part := (if (val x <? 0)%Z then 1 else (length s - 1) mod 9 + 1)%nat) in *.
  assert (Hp : Z.of_nat ((length s - 1) mod 9 + 1) = (Z.of_nat (length s) - 1) mod 9 + 1).
  { rewrite Nat2Z.inj_add, Nat2Z.inj_mod, Nat2Z.inj_sub by lia. reflexivity. }
  assert (G : (Z.to_nat (owidth o) - part = Z.to_nat (owidth o) - length s)%nat <->
    (owidth o <= 1 \/ 0 <= val x < B \/ B <= val x /\ forall s, canonical_text s (val x) -> owidth o <= (Z.of_nat (length s) - 1) mod 9 + 1)).
  { unfold part. destruct (Z.ltb_spec (val x) 0) as [N|N].
    - specialize (L2 N). split; [intros A; left; lia|]. intros [A|[A|[A _]]]; lia.
    - specialize (L1 N). destruct (Z.lt_ge_cases (val x) B) as [S|S].
      + assert (length s <= 9)%nat by (apply L1; lia). rewrite Nat.mod_small by lia. split; [auto|intros _; lia].
      + assert (9 < length s)%nat by lia. assert ((length s - 1) mod 9 < 9)%nat by (apply Nat.mod_upper_bound; lia). split.
        * intros A. right. right. split; auto. intros s' Hs'. rewrite (canonical_text_unique _ _ _ Hs' Hs), <- Hp. lia.
        * intros [A|[A|[_ A]]]; [lia|lia|]. specialize (A s Hs). rewrite <- Hp in A. lia. }
  rewrite <- G, E. unfold put. split.
  - intros (s' & Hs' & [= A C]). rewrite (canonical_text_unique _ _ _ Hs' Hs) in A. apply app_inv_head, repeat_app_inj in A. split; auto.
    destruct (Z.ltb_spec (Z.abs (val x)) B); auto.
  - intros [A C]. exists s. split; auto. rewrite A. f_equal. destruct (Z.ltb_spec (Z.abs (val x)) B) as [|S]; auto. destruct C as [C|C]; [lia|auto].
Qed.
Lemma canonical_text_int s z : canonical_text s z -> int_text s z.
Proof.
  intros [|c ds n H Hc|c ds n H Hc].
  - apply it_pos. constructor. reflexivity.
  - apply it_pos; auto.
  - apply it_neg; auto.
Qed.
Lemma Int_to_string_ok x : canonical x -> canonical_text (Int_to_string x) (val x).
Proof.
  intros Hx. destruct (Int_print_text x [] SPACE) as (s & H1 & H2); auto.
  - intros Hz. destruct Hx as (_ & _ & Hn). destruct (negative x); auto. exfalso; apply Hn; auto.
  - unfold Int_to_string, fresh_out. rewrite H2. exact H1.
Qed.
