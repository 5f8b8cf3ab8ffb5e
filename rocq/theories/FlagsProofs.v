(** Printing an Int under given formatting flags. *)
From Coq Require Import Ascii String ZifyBool.
From Verif Require Import Base IntModel IntSpec IntBasics IntMul IOModel IOSpec IOProofs Int32Spec MiscProofs FlagsModel FlagsSpec.
Local Open Scope list_scope.
Local Open Scope Z_scope.

(** *** Numerals in any base *)
Lemma digit_in_ok b up d : 8 <= b <= 16 -> 0 <= d < b -> base_digit b up (digit_in up d) d.
Proof.
  intros Hb Hd. split; [auto|]. assert (K : In (Z.to_nat d) (seq 0 16)) by (apply in_seq; lia). rewrite <- (Z2Nat.id d) at 2 by lia. clear Hd.
  cbn in K. repeat (destruct K as [<-|K]; [destruct up; reflexivity|]). contradiction.
Qed.
Lemma to_base_ok b up f : 8 <= b <= 16 -> forall n, 0 <= n < b ^ Z.of_nat (S f) -> base_numeral b up (to_base (S f) b up n) n.
Proof.
  intros Hb. induction f as [|f IH]; intros n Hn; [|remember (S f) as g eqn:Eg]; cbn [to_base]; destruct (Z.ltb_spec n b) as [L|L];
    try (constructor; apply digit_in_ok; auto; lia); [change (b ^ Z.of_nat 1) with (b ^ 1) in Hn; lia|].
  replace n with (b * (n / b) + n mod b) at 3 by (symmetry; apply Z.div_mod; lia).
  rewrite Nat2Z.inj_succ, Z.pow_succ_r in Hn by lia. constructor.
  - apply IH. split; [apply Z.div_pos; lia|]. apply Z.div_lt_upper_bound; lia.
  - apply Z.div_str_pos. lia.
  - apply digit_in_ok; auto. apply Z.mod_pos_bound. lia.
Qed.
(** a numeral of k digits *)
Lemma base_numeral_size b up t n : 1 < b -> base_numeral b up t n -> 0 <= n /\ n < b ^ Z.of_nat (length t) /\ (0 < n -> b ^ (Z.of_nat (length t) - 1) <= n) /\ (n = 0 -> length t = 1%nat).
Proof.
  intros Hb. induction 1 as [c d [Hd _]|t n c d H IH Hn [Hd _]].
  - cbn [length]. change (Z.of_nat 1) with 1. rewrite Z.pow_1_r. change (b ^ (1 - 1)) with 1. lia.
  - destruct IH as (I1 & I2 & I3 & _). specialize (I3 Hn). rewrite app_length. cbn [length]. rewrite Nat2Z.inj_add. change (Z.of_nat 1) with 1.
    assert (L : 0 < Z.of_nat (length t)). { destruct H; [reflexivity|]. rewrite app_length. cbn. lia. }
    rewrite Z.pow_add_r, Z.pow_1_r by lia. replace (Z.of_nat (length t) + 1 - 1) with (Z.succ (Z.of_nat (length t) - 1)) by lia. rewrite Z.pow_succ_r by lia.
    splits; nia.
Qed.

(** *** Bins *)
Lemma int_digits_ok fl b : 0 <= b < B -> plain_text fl (int_digits fl b) b.
Proof.
  intros Hb. unfold plain_text, int_digits. change B with (10 ^ 9) in Hb. destruct (base fl).
  - rewrite Z.abs_eq by lia. assert (H := dec_int32_text b). unfold dec_int32 in H. replace (b <? 0) with false in H by lia. apply H. unfold fits, INT32_MIN, INT32_MAX. lia.
  - rewrite Z.mod_small by lia. apply (to_base_ok 8 false 10); [lia|]. change (8 ^ Z.of_nat 11) with 8589934592. lia.
  - rewrite Z.mod_small by lia. apply (to_base_ok 16 _ 10); [lia|]. change (16 ^ Z.of_nat 11) with 17592186044416. lia.
Qed.
Lemma int_prefix_ok fl b : 0 <= b -> int_prefix fl b = sign_text fl b ++ prefix_text fl b.
Proof.
  intros Hb. unfold int_prefix, sign_text, prefix_text. replace (b <? 0) with false by lia. destruct (base fl), (showpos fl), (showbase fl), (b =? 0); reflexivity.
Qed.
(** what is written for one of the lower bins *)
Definition block (fl : flags) (b : Z) : chars :=
  let p := int_prefix fl b in let d := int_digits fl b in let pad := repeat ZERO (9 - length (p ++ d)) in
  match adjust fl with Left => p ++ d ++ pad | Internal => match base fl with Oct => pad ++ p ++ d | _ => p ++ pad ++ d end | Right => pad ++ p ++ d end.
Lemma put_bins_text fl r : forall o, obuf (put_bins fl o r) = obuf o ++ flat_map (block fl) r /\ owidth (put_bins fl o r) = (match r with [] => owidth o | _ => 0 end).
Proof.
  induction r as [|b r IH]; intros o; cbn [put_bins flat_map]; [rewrite app_nil_r; auto|].
  destruct (IH (put_int fl (setfill ZERO (setw BIN_WIDTH o)) b)) as [-> ->]. cbn [put_int setfill setw obuf owidth ofill]. change (Z.to_nat BIN_WIDTH) with 9%nat.
  rewrite <- app_assoc. split; [reflexivity|]. destruct r; reflexivity.
Qed.
Lemma block_length fl b : (9 <= length (block fl b))%nat.
Proof.
  unfold block. set (p := int_prefix fl b). set (d := int_digits fl b).
  destruct (adjust fl), (base fl); rewrite ?app_length, ?repeat_length, ?app_length; lia.
Qed.

(** *** A whole Int, no field width *)
Definition minus (x : Int) : chars := if negative x then [MINUS] else [].
Definition lower (x : Int) : list Z := tl (skip_zero_bins (rev (bins x))).
Definition upper (x : Int) : Z := hd 0 (skip_zero_bins (rev (bins x))).
Lemma Int_insert_text fl o x : owidth o = 0 ->
  obuf (Int_insert fl o x) = obuf o ++ minus x ++ int_prefix fl (upper x) ++ int_digits fl (upper x) ++ flat_map (block fl) (lower x).
Proof.
  intros W. unfold Int_insert, minus, lower, upper.
  assert (P : forall o z, owidth o = 0 -> obuf (put_int fl o z) = obuf o ++ int_prefix fl z ++ int_digits fl z /\ owidth (put_int fl o z) = 0).
  { intros o' z W'. unfold put_int. cbn [obuf owidth]. rewrite W'. change (Z.to_nat 0 - _)%nat with 0%nat. cbn [repeat app]. split; [|reflexivity].
    f_equal. destruct (adjust fl), (base fl); rewrite ?app_nil_r; reflexivity. }
  set (o1 := if negative x then put_char fl o MINUS else o).
  assert (O1 : obuf o1 = obuf o ++ (if negative x then [MINUS] else []) /\ owidth o1 = 0).
  { unfold o1, put_char. destruct (negative x); [|rewrite app_nil_r; auto]. cbn [obuf owidth]. rewrite W. cbn. split; [|reflexivity]. destruct (adjust fl); reflexivity. }
  destruct O1 as [O1 O2]. destruct (skip_zero_bins (rev (bins x))) as [|b r]; cbn [hd tl flat_map].
  - destruct (P o1 0 O2) as [-> _]. rewrite O1, app_nil_r, <- !app_assoc. reflexivity.
  - destruct (put_bins_text fl r (put_int fl o1 b)) as [-> _]. destruct (P o1 b O2) as [-> _]. rewrite O1, <- !app_assoc. reflexivity.
Qed.
(** the leading bin and the lower ones *)
Lemma parts_of x : canonical x -> bins x = rev (lower x) ++ [upper x] /\ 0 <= upper x < B /\ Forall digit_ok (lower x) /\ (lower x <> [] -> upper x <> 0) /\
  aval x = upper x * pw (length (lower x)) + bins_val (rev (lower x)) /\ (lower x = [] -> aval x = upper x) /\ (lower x <> [] -> B <= aval x).
Proof.
  intros Cx. pose proof (canonical_wf _ Cx) as [Hne Hd].
  assert (E : bins x = rev (lower x) ++ [upper x] /\ (lower x <> [] -> upper x <> 0)).
  { unfold lower, upper. destruct Cx as (_ & T & _). destruct (rev (bins x)) as [|b r] eqn:Er; [apply (f_equal (@rev Z)) in Er; rewrite rev_involutive in Er; contradiction|].
    assert (Eb : bins x = rev r ++ [b]) by (rewrite <- (rev_involutive (bins x)), Er; reflexivity). rewrite Eb. clear Er.
    cbn [skip_zero_bins]. destruct (Z.eqb_spec b 0) as [->|Nb]; [|cbn; auto].
    assert (r = []) as ->; [|cbn; auto]. rewrite Eb in T. destruct r as [|a r]; [reflexivity|]. exfalso. unfold trimmed in T. rewrite last_last, app_length, rev_length in T. cbn in T. lia. }
  destruct E as [E N]. rewrite E in Hd. apply Forall_app in Hd as [D1 D2]. inversion D2 as [|? ? D3 _]; subst. unfold digit_ok in D3. apply Forall_rev in D1. rewrite rev_involutive in D1.
  assert (V : aval x = upper x * pw (length (lower x)) + bins_val (rev (lower x))).
  { unfold aval. rewrite E, bins_val_app, rev_length. cbn [bins_val]. lia. }
  refine (conj E (conj D3 (conj D1 (conj N (conj V (conj _ _)))))).
  - intros L. rewrite L in V. cbn in V. rewrite pw_0 in V. lia.
  - intros L. specialize (N L). rewrite V. pose proof (bins_val_bound (rev (lower x)) (Forall_rev D1)) as [P _].
    destruct (lower x) as [|b r] eqn:Er; [contradiction|]. cbn [length]. rewrite pw_S. pose proof (pw_pos (length r)). nia.
Qed.

Lemma canonical_sign x : canonical x -> minus x = if val x <? 0 then ["-"%char] else [].
Proof. intros Cx. unfold minus. rewrite (canonical_neg_eq x Cx). reflexivity. Qed.
Lemma digits_not_plus t n : canonical_text t n -> ~ In "+"%char t.
Proof.
  assert (G : forall ds, digits ds -> ~ In "+"%char ds).
  { intros ds D Hi. unfold digits in D. rewrite Forall_forall in D. specialize (D _ Hi). discriminate. }
  intros H. destruct H as [|c ds n H _|c ds n H _]; [intros [E|[]]; discriminate|apply numeral_iff in H; apply G; tauto|].
  apply numeral_iff in H. intros [E|Hi]; [discriminate|]. revert Hi. apply G; tauto.
Qed.
(** *** Base 10 without showpos *)
Lemma text_dec fl t v : base fl = Dec -> showpos fl = false -> (text_with fl t v <-> canonical_text t v).
Proof.
  intros Eb Es. unfold text_with, plain_text, sign_text, prefix_text. rewrite Eb, Es.
  assert (P : (if showbase fl && negb (v =? 0) then [] else []) = @nil ascii) by (destruct (_ && _); reflexivity). rewrite P. cbn [app].
  split.
  - intros (num & H & ->). destruct (Z.ltb_spec v 0); [|rewrite Z.abs_eq in H by lia; exact H]. rewrite Z.abs_neq in H by lia.
    remember (- v) as n eqn:En. destruct H as [|c ds n H N|c ds n H N]; [lia| |].
    + cbn [app]. replace v with (- n) by lia. apply ct_neg; auto.
    + exfalso. apply numeral_iff in H as (_ & D & V). pose proof (nv_bound _ D). lia.
  - intros H. destruct H as [|c ds n H N|c ds n H N]; pose proof H as Hn || idtac.
    + exists [ZERO]. split; [constructor|reflexivity].
    + exists (c :: ds). apply numeral_iff in Hn as (_ & D & V). pose proof (nv_bound _ D). replace (n <? 0) with false by lia. rewrite Z.abs_eq by lia. split; [constructor; auto|reflexivity].
    + exists (c :: ds). apply numeral_iff in Hn as (_ & D & V). pose proof (nv_lead c ds D N). pose proof (p10_pos (length ds)).
      replace (- n <? 0) with true by lia. rewrite Z.abs_neq, Z.opp_involutive by lia. split; [constructor; auto|reflexivity].
Qed.
Lemma Int_insert_default fl o x : base fl = Dec -> showpos fl = false -> adjust fl <> Left -> wf x -> Int_insert fl o x = Int_print o x.
Proof.
  intros Eb Es Ea [Hne Hd].
  assert (P : forall o b, 0 <= b -> put_int fl o b = put o (dec_int32 b)).
  { intros o' b Hb. unfold put_int, put, int_prefix, int_digits, dec_int32. rewrite Eb, Es. replace (b <? 0) with false by lia. rewrite Z.abs_eq by lia. cbn [app].
    destruct (adjust fl); try contradiction; reflexivity. }
  assert (L : forall r o, Forall digit_ok r -> put_bins fl o r = print_bins o r).
  { induction r as [|b r IH]; intros o' Hr; [reflexivity|]. inversion Hr as [|? ? Hb Hr']; subst. cbn [put_bins print_bins]. rewrite P by (unfold digit_ok in Hb; lia). apply IH, Hr'. }
  unfold Int_insert, Int_print. replace (put_char fl o MINUS) with (put o [MINUS]).
  2: { unfold put_char, put. f_equal. f_equal. destruct (adjust fl); try contradiction; reflexivity. }
  destruct (skip_zero_bins_ok (rev (bins x))) as (n & E & _); [apply Forall_rev; auto|].
  assert (F : Forall digit_ok (skip_zero_bins (rev (bins x)))). { apply Forall_rev in Hd. rewrite E in Hd. apply Forall_app in Hd. tauto. }
  destruct (skip_zero_bins (rev (bins x))) as [|b r]; [apply P; lia|]. inversion F as [|? ? Hb Hr]; subst. rewrite P by (unfold digit_ok in Hb; lia). apply L, Hr.
Qed.
Lemma dec_width b : 0 <= b < B -> (length (dec_aux 10 b) <= 9)%nat /\ ((length (dec_aux 10 b) = 9)%nat <-> 10 ^ 8 <= b) /\ (b = 0 -> dec_aux 10 b = [ZERO]) /\
  (b <> 0 -> exists c ds, dec_aux 10 b = c :: ds /\ c <> ZERO).
Proof.
  intros Hb. pose proof (dec_int32_ok b Hb) as H. unfold dec_int32 in H. replace (b <? 0) with false in H by lia. destruct H as (D & V & N & L & H1 & H2).
  splits; auto. destruct (Z.eq_dec b 0) as [->|Nb]; [rewrite H2 by auto; cbn; lia|]. destruct (H1 Nb) as (c & ds & E & Hc). rewrite E in *.
  pose proof (nv_lead c ds D Hc) as B1. pose proof (nv_bound _ D) as B2. rewrite V in *. cbn [length] in *. unfold p10 in *. split; intros G.
  - injection G as G. rewrite G in B1. exact B1.
  - destruct (Nat.le_gt_cases 8 (length ds)); [lia|]. assert (10 ^ Z.of_nat (S (length ds)) <= 10 ^ 8) by (apply Z.pow_le_mono_r; lia). lia.
Qed.
Lemma app_inv_len {A} (a c : list A) b d : length a = length c -> a ++ b = c ++ d -> a = c /\ b = d.
Proof. revert c; induction a as [|y a IH]; intros [|z c] L E; try discriminate; [auto|]. injection L as L. injection E as -> E. destruct (IH _ L E) as [-> ->]; auto. Qed.
Definition round_bin (b : Z) : Prop := b = 0 \/ 10 ^ 8 <= b.
Lemma left_blocks (fl fr : flags) r : base fl = Dec -> base fr = Dec -> showpos fl = false -> showpos fr = false -> adjust fl = Left -> adjust fr = Right ->
  Forall digit_ok r -> (flat_map (block fl) r = flat_map (block fr) r <-> Forall round_bin r).
Proof.
  intros Bl Br Sl Sr Al Ar. induction 1 as [|b r Hb Hr IH]; cbn [flat_map]; [split; auto|].
  assert (El : block fl b = dec_aux 10 b ++ repeat ZERO (9 - length (dec_aux 10 b))).
  { unfold block, int_prefix, int_digits. unfold digit_ok in Hb. rewrite Bl, Sl, Al. replace (b <? 0) with false by lia. rewrite Z.abs_eq by lia. reflexivity. }
  assert (Er : block fr b = repeat ZERO (9 - length (dec_aux 10 b)) ++ dec_aux 10 b).
  { unfold block, int_prefix, int_digits. unfold digit_ok in Hb. rewrite Br, Sr, Ar. replace (b <? 0) with false by lia. rewrite Z.abs_eq by lia. reflexivity. }
  destruct (dec_width b Hb) as (L & W & Z0 & Z1).
  assert (Q : block fl b = block fr b <-> round_bin b).
  { rewrite El, Er. unfold round_bin. split.
    - intros E. destruct (Z.eq_dec b 0) as [|N]; [auto|]. right. apply W. destruct (Z1 N) as (c & ds & Ed & Hc). rewrite Ed in E, L |- *. cbn [length] in *.
      destruct (9 - S (length ds))%nat eqn:K; [lia|]. cbn in E. injection E as E _. contradiction.
    - intros [Hz|Hz]; [rewrite (Z0 Hz); reflexivity|]. apply W in Hz. rewrite Hz. cbn [repeat Nat.sub app]. apply app_nil_r. }
  assert (Ll : length (block fl b) = length (block fr b)) by (rewrite El, Er, !app_length; lia).
  split.
  - intros E. destruct (app_inv_len _ _ _ _ Ll E) as [E1 E2]. constructor; [apply Q, E1|apply IH, E2].
  - intros F. inversion F; subst. f_equal; [apply Q; auto|apply IH; auto].
Qed.
(** the lower bins are the groups of nine digits *)
Lemma groups x : canonical x -> forall i, (i < length (lower x))%nat <-> 10 ^ (9 * (Z.of_nat i + 1)) <= Z.abs (val x).
Proof.
  intros Cx i. destruct (parts_of x Cx) as (_ & U & D & N & V & V0 & _). rewrite (abs_val x (canonical_wf x Cx)).
  assert (P : forall k, 10 ^ (9 * (Z.of_nat k + 1)) = pw (S k)).
  { intros k. rewrite Z.pow_mul_r by lia. change (10 ^ 9) with B. unfold pw. f_equal. lia. }
  rewrite P. pose proof (bins_val_bound (rev (lower x)) (Forall_rev D)) as [Q1 Q2]. rewrite rev_length in Q2.
  split; intros H.
  - assert (upper x <> 0) by (apply N; destruct (lower x); cbn in H; [lia|discriminate]). rewrite V.
    assert (pw (S i) <= pw (length (lower x))) by (apply Z.pow_le_mono_r; [reflexivity|lia]). pose proof (pw_pos (length (lower x))). nia.
  - destruct (Nat.lt_ge_cases i (length (lower x))) as [L|L]; [exact L|]. exfalso.
    assert (pw (length (lower x)) <= pw i) by (apply pw_le; lia). rewrite pw_S in H. pose proof (pw_pos (length (lower x))). nia.
Qed.
Lemma bins_val_nth r : Forall digit_ok r -> forall s i, (i < length r)%nat -> nth i r 0 = (bins_val r + pw (length r) * s) / pw i mod B.
Proof.
  induction 1 as [|b r Hb Hr IH]; intros s i Hi; cbn [length] in Hi; [lia|]. unfold digit_ok in Hb. cbn [bins_val length]. rewrite pw_S.
  replace (b + B * bins_val r + B * pw (length r) * s) with (b + (bins_val r + pw (length r) * s) * B) by ring.
  destruct i as [|i]; cbn [nth].
  - rewrite pw_0, Z.div_1_r, Z.mod_add, Z.mod_small by (auto; lia). reflexivity.
  - rewrite pw_S, <- Z.div_div by (try apply pw_pos; lia || (pose proof (pw_pos i); lia)). rewrite Z.div_add, (Z.div_small b) by lia. apply (IH s). lia.
Qed.
Lemma lower_groups x : canonical x -> Forall round_bin (lower x) <->
  (forall i, 10 ^ (9 * (Z.of_nat i + 1)) <= Z.abs (val x) -> nine_digits (val x) i = 0 \/ 10 ^ 8 <= nine_digits (val x) i).
Proof.
  intros Cx. pose proof (groups x Cx) as G. destruct (parts_of x Cx) as (E & U & D & N & V & _).
  assert (K : forall i, (i < length (lower x))%nat -> nth i (rev (lower x)) 0 = nine_digits (val x) i).
  { intros i Hi. rewrite <- rev_length in Hi. rewrite (bins_val_nth _ (Forall_rev D) (upper x) i Hi). unfold nine_digits. rewrite (abs_val x (canonical_wf x Cx)), V, rev_length.
    rewrite Z.pow_mul_r by lia. change (10 ^ 9) with B. fold (pw i). f_equal. f_equal. lia. }
  split.
  - intros F i Hi. apply G in Hi. rewrite <- (K i Hi). apply Forall_rev in F. rewrite Forall_forall in F. apply F, nth_In. rewrite rev_length. exact Hi.
  - intros H. rewrite <- (rev_involutive (lower x)). apply Forall_rev, Forall_forall. intros b Hb. apply (In_nth _ _ 0) in Hb as (i & Hi & <-). rewrite rev_length in Hi.
    rewrite (K i Hi). apply H, G, Hi.
Qed.

(** *** When the text is right *)
Section Text.
  Variables (fl : flags) (o : ostream) (x : Int).
  Hypotheses (W : owidth o = 0) (Cx : canonical x).
  Definition written := minus x ++ int_prefix fl (upper x) ++ int_digits fl (upper x) ++ flat_map (block fl) (lower x).
  Lemma written_ok t : obuf (Int_insert fl o x) = obuf o ++ t <-> t = written.
  Proof. rewrite (Int_insert_text fl o x W). split; [intros E; apply app_inv_head in E; auto|intros ->; reflexivity]. Qed.
  Lemma small_lower : Z.abs (val x) < 10 ^ 9 <-> lower x = [].
  Proof.
    destruct (parts_of x Cx) as (_ & U & _ & _ & _ & V0 & V1). rewrite (abs_val x (canonical_wf x Cx)). change (10 ^ 9) with B. split; intros H; [|rewrite V0 by exact H; lia].
    destruct (lower x); [reflexivity|]. specialize (V1 ltac:(discriminate)). lia.
  Qed.
  Lemma upper_zero : val x = 0 <-> upper x = 0.
  Proof.
    pose proof (groups x Cx O) as G. destruct (parts_of x Cx) as (_ & U & _ & N & _ & V0 & V1). pose proof (abs_val x (canonical_wf x Cx)) as A.
    destruct (lower x) as [|b r]; [specialize (V0 eq_refl); lia|]. specialize (V1 ltac:(discriminate)). specialize (N ltac:(discriminate)). lia.
  Qed.
  Lemma prefix_upper : prefix_text fl (upper x) = prefix_text fl (val x).
  Proof. unfold prefix_text. destruct upper_zero. replace (upper x =? 0) with (val x =? 0); [reflexivity|]. lia. Qed.

  Lemma one_bin : Z.abs (val x) < 10 ^ 9 -> (text_with fl written (val x) <-> ~ (base fl = Dec /\ showpos fl = true /\ val x < 0)).
  Proof.
    intros Hs. pose proof (proj1 small_lower Hs) as L. destruct (parts_of x Cx) as (_ & U & _ & _ & _ & V0 & _). specialize (V0 L).
    rewrite <- (abs_val x (canonical_wf x Cx)) in V0. unfold written. rewrite L. cbn [flat_map]. rewrite app_nil_r.
    rewrite (int_prefix_ok fl (upper x)), prefix_upper, (canonical_sign x Cx) by lia.
    pose proof (int_digits_ok fl (upper x) U) as T. rewrite <- V0 in T at 2. split.
    - intros (num & Hn & E) (Eb & Es & Hv). unfold plain_text in Hn. rewrite Eb in Hn. revert E. unfold sign_text, prefix_text. rewrite Eb, Es.
      replace (val x <? 0) with true by lia. replace (upper x <? 0) with false by lia. cbn [app]. destruct (_ && _); cbn [app]; intros [= E]; apply (digits_not_plus _ _ Hn); rewrite <- E; left; reflexivity.
    - intros N. exists (int_digits fl (upper x)). split; [exact T|]. unfold sign_text. replace (upper x <? 0) with false by lia.
      destruct (Z.ltb_spec (val x) 0) as [Hv|Hv]; rewrite <- !app_assoc; [|reflexivity]. destruct (base fl); try reflexivity. destruct (showpos fl); [exfalso; auto|reflexivity].
  Qed.

  Lemma dec_right : base fl = Dec -> showpos fl = false -> adjust fl <> Left -> canonical_text written (val x).
  Proof.
    intros Eb Es Ea. pose proof (Int_insert_default fl (mkOut (obuf o) 0 (ofill o)) x Eb Es Ea (canonical_wf x Cx)) as E.
    destruct (Int_print_text x (obuf o) (ofill o) (canonical_wf x Cx)) as (s & Hs & Es'); [|].
    - intros H0. rewrite (canonical_neg_eq x Cx), H0. reflexivity.
    - rewrite Es' in E. pose proof (Int_insert_text fl (mkOut (obuf o) 0 (ofill o)) x eq_refl) as T. rewrite E in T. cbn [obuf] in T. apply app_inv_head in T. fold written in T. rewrite <- T. exact Hs.
  Qed.
End Text.
Lemma dec_text fl o x : owidth o = 0 -> canonical x -> base fl = Dec -> showpos fl = false ->
  (text_with fl (written fl x) (val x) <-> adjust fl <> Left \/
    (forall i, 10 ^ (9 * (Z.of_nat i + 1)) <= Z.abs (val x) -> nine_digits (val x) i = 0 \/ 10 ^ 8 <= nine_digits (val x) i)).
Proof.
  intros W Cx Eb Es. rewrite (text_dec _ _ _ Eb Es). destruct (adjust fl) eqn:Ea.
  1, 3: split; [left; discriminate|intros _; apply (dec_right fl o x Cx Eb Es); rewrite Ea; discriminate].
  rewrite <- (lower_groups x Cx). set (fr := mkFlags Dec Right false (showbase fl) (uppercase fl)).
  pose proof (dec_right fr o x Cx eq_refl eq_refl ltac:(discriminate)) as R.
  destruct (parts_of x Cx) as (_ & U & D & _).
  rewrite <- (left_blocks fl fr (lower x) Eb eq_refl Es eq_refl Ea eq_refl D).
  assert (H : written fl x = written fr x <-> flat_map (block fl) (lower x) = flat_map (block fr) (lower x)).
  { unfold written, int_prefix, int_digits. cbn [base showpos fr]. rewrite Eb, Es. split; [|intros ->; reflexivity]. intros E. do 3 apply app_inv_head in E. exact E. }
  split.
  - intros E. right. apply H. eapply canonical_text_unique; eauto.
  - intros [C|E]; [contradiction|]. apply H in E. rewrite E. exact R.
Qed.
(** a second + in a lower bin *)
Lemma dec_plus fl x : canonical x -> base fl = Dec -> showpos fl = true -> (text_with fl (written fl x) (val x) <-> 0 <= val x < 10 ^ 9).
Proof.
  intros Cx Eb Es. destruct (lower x) as [|b r] eqn:L.
  - pose proof (proj2 (small_lower x Cx) L) as S1. rewrite (one_bin fl x Cx S1). rewrite Es. split; [intros N; destruct (Z.lt_ge_cases (val x) 0); [exfalso; auto|lia]|intros H (_ & _ & G); lia].
  - assert (S1 : ~ Z.abs (val x) < 10 ^ 9) by (rewrite (small_lower x Cx), L; discriminate). split; [|lia].
    intros (num & Hn & E). exfalso. unfold plain_text in Hn. rewrite Eb in Hn. apply (digits_not_plus _ _ Hn). clear Hn.
    assert (P : In "+"%char (flat_map (block fl) (lower x))).
    { rewrite L. cbn [flat_map]. apply in_or_app. left. destruct (parts_of x Cx) as (_ & _ & D & _). rewrite L in D. inversion D as [|? ? Hb _]; subst. unfold digit_ok in Hb.
      unfold block. assert (Ep : int_prefix fl b = ["+"%char]) by (unfold int_prefix; rewrite Eb, Es; replace (b <? 0) with false by lia; reflexivity). rewrite Ep, Eb.
      destruct (adjust fl); rewrite ?in_app_iff; cbn [In]; auto. }
    revert E. unfold written. rewrite (canonical_sign x Cx). unfold sign_text, prefix_text. rewrite Eb, Es.
    assert (Ep : int_prefix fl (upper x) = ["+"%char]).
    { destruct (parts_of x Cx) as (_ & U & _). unfold int_prefix; rewrite Eb, Es; replace (upper x <? 0) with false by lia; reflexivity. }
    rewrite Ep. destruct (val x <? 0), (showbase fl && negb (val x =? 0)); cbn [app]; intros [= <-]; cbn [In]; rewrite ?in_app_iff; auto.
Qed.
Lemma hex_text fl x : canonical x -> base fl = Hex -> (text_with fl (written fl x) (val x) <-> Z.abs (val x) < 10 ^ 9).
Proof.
  intros Cx Eb. split; [|intros H; apply (one_bin fl x Cx H); rewrite Eb; intros [? _]; discriminate].
  intros (num & Hn & E). apply (small_lower x Cx). destruct (lower x) as [|b0 r0] eqn:L; [reflexivity|]. exfalso. assert (Lne : lower x <> []) by (rewrite L; discriminate). clear b0 r0 L.
  destruct (parts_of x Cx) as (_ & U & D & N & V & _ & V1). specialize (N Lne). specialize (V1 Lne). rewrite (abs_val x (canonical_wf x Cx)) in Hn.
  unfold plain_text in Hn. rewrite Eb in Hn. apply base_numeral_size in Hn as (_ & _ & Hn & _); [|lia]. specialize (Hn ltac:(lia)).
  pose proof (int_digits_ok fl (upper x) U) as Hd. unfold plain_text in Hd. rewrite Eb in Hd. apply base_numeral_size in Hd as (_ & Hd & _ & _); [|lia].
  assert (G : (length num = length (int_digits fl (upper x)) + length (flat_map (block fl) (lower x)))%nat).
  { apply (f_equal (@length ascii)) in E. revert E. unfold written. rewrite (int_prefix_ok fl (upper x)), (prefix_upper fl x Cx), (canonical_sign x Cx) by lia. unfold sign_text. rewrite Eb.
    replace (upper x <? 0) with false by lia. destruct (val x <? 0); rewrite !app_length; cbn [length]; lia. }
  assert (Q : forall r, (9 * length r <= length (flat_map (block fl) r))%nat).
  { induction r as [|b r IH]; cbn [flat_map length]; [lia|]. rewrite app_length. pose proof (block_length fl b). lia. }
  specialize (Q (lower x)). set (k := length (lower x)) in *. assert (K : (1 <= k)%nat) by (unfold k; destruct (lower x); [contradiction|cbn; lia]).
  set (d := length (int_digits fl (upper x))) in *. pose proof (bins_val_bound (rev (lower x)) (Forall_rev D)) as [_ Q2]. rewrite rev_length in Q2. fold k in Q2.
  assert (P : pw k <= 16 ^ (8 * Z.of_nat k)). { rewrite Z.pow_mul_r by lia. unfold pw. apply Z.pow_le_mono_l. split; [lia|]. change (16 ^ 8) with 4294967296. lia. }
  assert (X : 16 ^ (Z.of_nat (length num) - 1) < 16 ^ (Z.of_nat d + 8 * Z.of_nat k)).
  { rewrite Z.pow_add_r by lia. pose proof (pw_pos k). assert ((upper x + 1) * pw k <= 16 ^ Z.of_nat d * 16 ^ (8 * Z.of_nat k)) by (apply Z.mul_le_mono_nonneg; lia). nia. }
  apply Z.pow_lt_mono_r_iff in X; lia.
Qed.
(** *** Base 8, two bins *)
Definition oct_digit (c : ascii) : Z := Z.of_N (N_of_ascii c) - 48.
Fixpoint oct_val (acc : Z) (t : chars) : Z := match t with [] => acc | c :: t' => oct_val (8 * acc + oct_digit c) t' end.
Lemma oct_val_app a b : forall acc, oct_val acc (a ++ b) = oct_val (oct_val acc a) b.
Proof. induction a; intros acc; cbn; auto. Qed.
Lemma oct_val_acc t : forall acc, oct_val acc t = acc * 8 ^ Z.of_nat (length t) + oct_val 0 t.
Proof.
  induction t as [|c t IH]; intros acc; cbn [oct_val length]; [change (8 ^ Z.of_nat 0) with 1; lia|].
  rewrite IH, (IH (8 * 0 + _)), Nat2Z.inj_succ, Z.pow_succ_r by lia. ring.
Qed.
Lemma oct_val_zeros n : forall acc, oct_val acc (repeat ZERO n) = acc * 8 ^ Z.of_nat n.
Proof.
  induction n as [|n IH]; intros acc; [cbn; lia|]. cbn [repeat oct_val]. change (oct_digit ZERO) with 0. rewrite IH, Nat2Z.inj_succ, Z.pow_succ_r by lia. ring.
Qed.
Lemma oct_val_numeral t n : base_numeral 8 false t n -> oct_val 0 t = n.
Proof.
  assert (D : forall c d, base_digit 8 false c d -> oct_digit c = d).
  { intros c d [Hd E]. assert (K : In (Z.to_nat d) (seq 0 8)) by (apply in_seq; lia). rewrite <- (Z2Nat.id d) by lia. clear Hd.
    cbn in K. repeat (destruct K as [K|K]; [rewrite <- K in *; injection E as <-; reflexivity|]). contradiction. }
  induction 1 as [c d H|t n c d H IH Hn Hc]; [cbn; rewrite (D _ _ H); lia|]. rewrite oct_val_app, IH. cbn. rewrite (D _ _ Hc). lia.
Qed.
Lemma oct_text fl x : canonical x -> base fl = Oct -> Z.abs (val x) < 10 ^ 18 -> (text_with fl (written fl x) (val x) <-> Z.abs (val x) < 10 ^ 9).
Proof.
  intros Cx Eb H18. split; [|intros H; apply (one_bin fl x Cx H); rewrite Eb; intros [? _]; discriminate].
  intros (num & Hn & E). apply (small_lower x Cx). destruct (lower x) as [|b r] eqn:L; [reflexivity|]. exfalso.
  assert (r = []) as ->. { destruct r as [|c r]; [reflexivity|]. pose proof (proj1 (groups x Cx 1%nat)) as G. rewrite L in G. specialize (G ltac:(cbn; lia)). change (10 ^ (9 * (Z.of_nat 1 + 1))) with (10 ^ 18) in G. lia. }
  destruct (parts_of x Cx) as (_ & U & D & N & V & _ & _). rewrite L in *. specialize (N ltac:(discriminate)). rewrite (abs_val x (canonical_wf x Cx)) in Hn.
  inversion D as [|? ? Hb _]; subst. unfold digit_ok in Hb. cbn in V. change (pw 1) with B in V.
  assert (F : num = int_digits fl (upper x) ++ block fl b).
  { revert E. unfold written. rewrite (int_prefix_ok fl (upper x)), (prefix_upper fl x Cx), (canonical_sign x Cx), L by lia. unfold sign_text. rewrite Eb. cbn [flat_map]. rewrite app_nil_r.
    replace (upper x <? 0) with false by lia. rewrite <- !app_assoc. intros E. apply app_inv_head in E. cbn [app] in E. apply app_inv_head in E. auto. }
  clear E. unfold plain_text in Hn. rewrite Eb in Hn. apply oct_val_numeral in Hn. rewrite F, oct_val_app, oct_val_acc in Hn.
  pose proof (int_digits_ok fl (upper x) U) as Hu. pose proof (int_digits_ok fl b Hb) as Hd. unfold plain_text in Hd, Hu. rewrite Eb in Hd, Hu.
  apply oct_val_numeral in Hu. rewrite Hu in Hn. pose proof (oct_val_numeral _ _ Hd) as Vd. apply base_numeral_size in Hd as (_ & Hd & _); [|lia].
  assert (B8 : 8 ^ 9 = 134217728) by reflexivity.
  assert (P : exists p, int_prefix fl b = repeat ZERO p) by (unfold int_prefix; rewrite Eb; destruct (_ && _); [exists 1%nat|exists 0%nat]; reflexivity). destruct P as [p P].
  assert (M : forall m, (9 <= m)%nat -> 8 ^ Z.of_nat m = 134217728 \/ 1073741824 <= 8 ^ Z.of_nat m).
  { intros m Hm. destruct (Nat.eq_dec m 9) as [->|]; [left; reflexivity|right]. change 1073741824 with (8 ^ 10). apply Z.pow_le_mono_r; lia. }
  specialize (M (length (block fl b)) (block_length fl b)).
  assert (R : forall k, oct_val 0 (repeat ZERO k) = 0) by (intros k; rewrite oct_val_zeros; lia).
  unfold block in Hn, M. rewrite P, Eb in *. set (d := int_digits fl b) in *.
  destruct (adjust fl); rewrite !oct_val_app, ?R, ?Vd in Hn; try (destruct M; nia).
  rewrite oct_val_zeros in Hn. rewrite !app_length, !repeat_length in *. set (j := (9 - (p + length d))%nat) in *.
  destruct (Nat.eq_dec j 0) as [J|J]; [rewrite J in *; change (8 ^ Z.of_nat 0) with 1 in Hn; destruct M; nia|].
  assert (b * 8 ^ Z.of_nat j < 8 ^ 9).
  { replace 9 with (Z.of_nat (p + length d) + Z.of_nat j) by lia. rewrite Z.pow_add_r by lia. apply Z.mul_lt_mono_pos_r; [apply Z.pow_pos_nonneg; lia|].
    apply (Z.lt_le_trans _ _ _ Hd). apply Z.pow_le_mono_r; lia. }
  replace (p + (length d + j))%nat with 9%nat in Hn by lia. change (8 ^ Z.of_nat 9) with 134217728 in Hn. nia.
Qed.
