(** Lemmas about the text of a double under floating-point flags. *)
From Coq Require Import Ascii String QArith Qabs Qpower SpecFloat ZifyBool Lqa.
From Verif Require Import Base IntModel IntBasics FracModel FracSpec IOModel IOSpec IOProofs FlagsModel FlagsSpec FlagsProofs FracProofs FracDouble CommonSpec DoubleModel FormatSpec FormatProofs
  ElemModel ElemSpec VecModel MatModel MatSpec MatPrint PieceModel PieceProofs FloatModel FloatSpec.
Local Open Scope list_scope.
Local Open Scope Z_scope.

(** *** Digits *)
Lemma with_digits_ok pt f : with_digits pt f = point_digits pt f.
Proof. reflexivity. Qed.
Lemma drop_unless_ok keep f : shortened keep f (drop_unless keep f).
Proof. unfold shortened, drop_unless. destruct keep; [reflexivity|]. apply strip_zeros_ok. Qed.
Lemma no_zero_end_strip g j h k : g ++ repeat "0"%char j = h ++ repeat "0"%char k -> no_zero_end g -> no_zero_end h -> g = h.
Proof.
  assert (R : forall n, repeat "0"%char (S n) = repeat "0"%char n ++ ["0"%char]) by (intros n; rewrite <- repeat_cons; reflexivity).
  revert k. induction j as [|j IH]; intros k E Ng Nh; destruct k as [|k].
  - rewrite !app_nil_r in E. exact E.
  - exfalso. rewrite app_nil_r, R, app_assoc in E. unfold no_zero_end in Ng. rewrite E, last_last in Ng. auto.
  - exfalso. rewrite app_nil_r, R, app_assoc in E. unfold no_zero_end in Nh. rewrite <- E, last_last in Nh. auto.
  - rewrite !R, !app_assoc in E. apply app_inj_tail in E as [E _]. eauto.
Qed.
Lemma shortened_unique keep f g h : shortened keep f g -> shortened keep f h -> g = h.
Proof.
  unfold shortened. destruct keep; [intros -> ->; reflexivity|]. intros (j & E & Ng) (k & F & Nh). rewrite E in F. eapply no_zero_end_strip; eauto.
Qed.
Lemma canonical_value t z : canonical_text t z -> 0 <= z -> digits t -> z = nv 0 t.
Proof. intros H Hz D. destruct H as [|c ds n H _|c ds n H N]; [reflexivity|apply numeral_iff in H; tauto|]. inversion D; discriminate. Qed.

(** *** Uniqueness of the notations *)
Lemma ten_cancel n m k : (inject_Z n * ten k == inject_Z m * ten k)%Q -> n = m.
Proof.
  intros E. apply Qmult_inj_r in E; [|pose proof (ten_pos k); intros X; rewrite X in *; discriminate]. unfold Qeq in E. cbn in E. lia.
Qed.
Lemma fixed_notation_unique pt keep k t u q r : fixed_notation pt keep k t q -> fixed_notation pt keep k u r -> (q == r)%Q -> t = u.
Proof.
  intros [i a f g n q' Ci Ha Hn Lf Sf Q] [j b f' g' m r' Cj Hb Hm Lg Sg R] E. rewrite Q, R in E. apply ten_cancel in E. subst m.
  apply numeral_iff in Hn as (_ & Df & Vf). apply numeral_iff in Hm as (_ & Dg & Vg). rewrite Vf in Vg. rewrite !nv_app0 in Vg.
  unfold digits in Df, Dg. apply Forall_app in Df as [Di Df]. apply Forall_app in Dg as [Dj Dg]. pose proof (nv_bound _ Df) as Bf. pose proof (nv_bound _ Dg) as Bg.
  assert (L : length f = length f') by lia. rewrite L in *. pose proof (p10_pos (length f')).
  assert (Eij : nv 0 i = nv 0 j) by nia. assert (Ef : f = f') by (apply nv_inj; auto; nia). subst f'.
  assert (a = b) by (rewrite (canonical_value _ _ Ci Ha Di), (canonical_value _ _ Cj Hb Dj); exact Eij). subst b.
  rewrite (canonical_text_unique _ _ _ Ci Cj), (shortened_unique _ _ _ _ Sf Sg). reflexivity.
Qed.
Lemma exponent_notation_decade up pt keep k t q x : exponent_notation up pt keep k t q x -> (ten x <= q < ten (x + 1))%Q.
Proof.
  intros [c f g n e y q' Hn Hc Lf _ _ Q]. rewrite Q. apply numeral_iff in Hn as (_ & D & ->). pose proof (nv_lead c f D Hc) as A. pose proof (nv_bound _ D) as [_ B]. cbn [length] in B. unfold p10 in A, B.
  rewrite Nat2Z.inj_succ, <- Z.add_1_r in B. pose proof (scaled_decade (nv 0 (c :: f)) (Z.of_nat (length f)) (y - Z.of_nat (length f)) ltac:(lia) (conj A B)) as H.
  rewrite Z.sub_add in H. rewrite <- Lf. exact H.
Qed.
Lemma exponent_notation_unique up pt keep k t u q r x y : exponent_notation up pt keep k t q x -> exponent_notation up pt keep k u r y -> (q == r)%Q -> t = u.
Proof.
  intros H K E. pose proof (exponent_notation_decade _ _ _ _ _ _ _ H) as A. pose proof (exponent_notation_decade _ _ _ _ _ _ _ K) as B. rewrite <- E in B. pose proof (decade_unique _ _ _ A B) as <-. clear A B.
  inversion H as [c f g n e z q' Hn Hc Lf Sf He Q]; subst. inversion K as [c' f' g' n' e' z' r' Hn' Hc' Lg Sg He' R]; subst. clear H K.
  rewrite Q, R in E. apply ten_cancel in E. subst n'. rewrite (exponent_digits_unique _ _ _ He He').
  apply numeral_iff in Hn as (_ & Df & Vf). apply numeral_iff in Hn' as (_ & Dg & Vg).
  assert (X : c :: f = c' :: f') by (apply nv_inj; auto; [cbn [length]; lia|congruence]). injection X as -> ->. rewrite (shortened_unique _ _ _ _ Sf Sg). reflexivity.
Qed.
Lemma sig_digits_unique P x q r : sig_digits P x q -> sig_digits P x r -> (q == r)%Q.
Proof.
  intros (k & n & K & N & ->) (j & m & J & M & ->). pose proof (decade_unique _ _ _ K J) as <-.
  assert (n <= m) by (apply (nearest_even_mono _ _ _ _ N M); apply Qle_refl). assert (m <= n) by (apply (nearest_even_mono _ _ _ _ M N); apply Qle_refl). replace m with n by lia. reflexivity.
Qed.
(** *** Base 16 *)
Lemma base_digit_inj up c d c' d' : base_digit 16 up c d -> base_digit 16 up c' d' -> c = c' <-> d = d'.
Proof.
  intros [B1 H1] [B2 H2]. split; [intros <-|intros <-; congruence].
  assert (G : forall up i j, (i < 16)%nat -> (j < 16)%nat -> nth_error (list_ascii_of_string (if up : bool then "0123456789ABCDEF" else "0123456789abcdef")) i = nth_error (list_ascii_of_string (if up then "0123456789ABCDEF" else "0123456789abcdef")) j -> i = j).
  { clear. intros up i j Hi Hj E. assert (ND : NoDup (list_ascii_of_string (if up then "0123456789ABCDEF" else "0123456789abcdef"))).
    { destruct up; cbn; repeat constructor; cbn; intuition discriminate. }
    eapply NoDup_nth_error; [exact ND| |exact E]. destruct up; cbn; lia. }
  assert (Z.to_nat d = Z.to_nat d') by (apply (G up); [lia|lia|congruence]). lia.
Qed.
Lemma hex_numeral_bound up t n : hex_numeral up t n -> 0 <= n < 16 ^ Z.of_nat (length t).
Proof.
  induction 1 as [|t n c d H IH D]; [cbn; lia|]. rewrite app_length. cbn [length]. rewrite Nat2Z.inj_add, Z.pow_add_r by lia. change (16 ^ Z.of_nat 1) with 16. destruct D as [D _]. nia.
Qed.
Lemma hex_numeral_inj up t n : hex_numeral up t n -> forall u m, hex_numeral up u m -> length t = length u -> n = m -> t = u.
Proof.
  induction 1 as [|t n c d H IH D]; intros u m K L E; destruct K as [|u m c' d' K D'].
  - reflexivity.
  - rewrite app_length in L. cbn in L. lia.
  - rewrite app_length in L. cbn in L. lia.
  - rewrite !app_length in L. cbn in L. assert (d = d') by (destruct D as [B _], D' as [B' _]; lia). subst d'. assert (n = m) by lia. subst m.
    rewrite (IH _ _ K) by (try lia; reflexivity). f_equal. f_equal. apply (base_digit_inj up c d c' d D D'). reflexivity.
Qed.
Lemma hex_numeral_fun up t n m : hex_numeral up t n -> hex_numeral up t m -> n = m.
Proof.
  intros H. revert m. induction H as [|t n c d H IH D]; intros m K.
  - inversion K as [|t' n' c' d' K' D' E]; [reflexivity|]. destruct t'; discriminate.
  - inversion K as [E|t' n' c' d' K' D' E]; [destruct t; discriminate|]. apply app_inj_tail in E as [-> ->]. rewrite (IH _ K'). f_equal. apply (base_digit_inj up c d c d' D D'). reflexivity.
Qed.
Lemma hex_numeral_cons up c f n : hex_numeral up (c :: f) n -> exists d m, base_digit 16 up c d /\ hex_numeral up f m /\ n = d * 16 ^ Z.of_nat (length f) + m.
Proof.
  revert n. induction f as [|e f IH] using rev_ind; intros n H.
  - inversion H as [|t n' c' d' K' D' E]. destruct t; [|destruct t; discriminate]. injection E as ->. inversion K' as [|t'' ? ? ? ? ? E']; [|destruct t''; discriminate]. exists d', 0. split; [auto|]. split; [constructor|]. cbn. lia.
  - change (c :: f ++ [e]) with ((c :: f) ++ [e]) in H. inversion H as [|t n' c' d' K' D' E].
    change (c :: f ++ [e]) with ((c :: f) ++ [e]) in E. apply app_inj_tail in E as [-> ->]. destruct (IH _ K') as (d & m & D & M & ->). exists d, (16 * m + d'). split; [auto|]. split; [constructor; auto|].
    rewrite app_length. cbn [length]. rewrite Nat2Z.inj_add, Z.pow_add_r by lia. change (16 ^ Z.of_nat 1) with 16. ring.
Qed.
Lemma hex_digit_ok up d : 0 <= d < 16 -> base_digit 16 up (digit_in up d) d.
Proof.
  intros H. split; [auto|]. assert (G : forallb (fun d => match nth_error (list_ascii_of_string (if up then "0123456789ABCDEF" else "0123456789abcdef")) (Z.to_nat d) with Some c => Ascii.eqb c (digit_in up d) | None => false end) (map Z.of_nat (seq 0 16)) = true) by (destruct up; vm_compute; reflexivity).
  rewrite forallb_forall in G. specialize (G d). destruct (nth_error _ _) as [c|].
  - f_equal. apply Ascii.eqb_eq, G. apply in_map_iff. exists (Z.to_nat d). split; [lia|apply in_seq; lia].
  - discriminate G. apply in_map_iff. exists (Z.to_nat d). split; [lia|apply in_seq; lia].
Qed.
Lemma hex_digits_ok n up : forall z, 0 <= z < 16 ^ Z.of_nat n -> hex_numeral up (hex_digits n up z) z /\ length (hex_digits n up z) = n.
Proof.
  induction n as [|n IH]; intros z Hz; cbn [hex_digits]; [cbn in Hz; replace z with 0 by lia; split; [constructor|reflexivity]|].
  rewrite Nat2Z.inj_succ, Z.pow_succ_r in Hz by lia. destruct (IH (z / 16)) as [H L]; [split; [apply Z.div_pos; lia|apply Z.div_lt_upper_bound; lia]|]. split; [|rewrite app_length, L; cbn; lia].
  assert (X : hex_numeral up (hex_digits n up (z / 16) ++ [digit_in up (z mod 16)]) (16 * (z / 16) + z mod 16)); [|rewrite <- Z.div_mod in X by lia; exact X]. constructor; [exact H|]. apply hex_digit_ok. apply Z.mod_pos_bound. lia.
Qed.
Lemma two_pow_add a b : ((2 # 1) ^ (a + b) == (2 # 1) ^ a * (2 # 1) ^ b)%Q.
Proof. apply Qpower_plus. discriminate. Qed.
Lemma two_pow_pos a : (0 < (2 # 1) ^ a)%Q.
Proof. apply Qpower_0_lt. reflexivity. Qed.
Lemma two_lt_inv j k : ((2 # 1) ^ j < (2 # 1) ^ k)%Q -> j < k.
Proof. intros H. apply (Qpower_lt_compat_l_inv (2 # 1)); [exact H|reflexivity]. Qed.
Lemma sixteen a : 0 <= a -> (inject_Z (16 ^ a) == (2 # 1) ^ (4 * a))%Q.
Proof. intros H. rewrite Qpow2_nonneg by lia. rewrite Z.pow_mul_r by lia. reflexivity. Qed.
Lemma hex_pad up t n j : hex_numeral up t n -> hex_numeral up (t ++ repeat "0"%char j) (n * 16 ^ Z.of_nat j).
Proof.
  intros H. induction j as [|j IH]; [cbn [repeat]; rewrite app_nil_r, Z.mul_1_r; exact H|].
  replace (repeat "0"%char (S j)) with (repeat "0"%char j ++ ["0"%char]) by (rewrite <- repeat_cons; reflexivity). rewrite app_assoc, Nat2Z.inj_succ, Z.pow_succ_r by lia.
  replace (n * (16 * 16 ^ Z.of_nat j)) with (16 * (n * 16 ^ Z.of_nat j) + 0) by ring. constructor; [exact IH|]. split; [lia|destruct up; reflexivity].
Qed.
Lemma hex_notation_unique up pt t u q r : hex_notation up pt t q -> hex_notation up pt u r -> (q == r)%Q -> t = u.
Proof.
  intros H K E.
  assert (XX : forall c f n x e q c' f' n' x' e' r, (q == r)%Q -> hex_numeral up (c :: f) n -> c = "1"%char /\ -1022 <= x \/ c = "0"%char /\ x = -1022 -> (q == inject_Z n * (2 # 1) ^ (x - 4 * Z.of_nat (length f)))%Q ->
     no_zero_end f -> canonical_text e (Z.abs x) -> hex_numeral up (c' :: f') n' -> c' = "1"%char /\ -1022 <= x' \/ c' = "0"%char /\ x' = -1022 -> (r == inject_Z n' * (2 # 1) ^ (x' - 4 * Z.of_nat (length f')))%Q ->
     no_zero_end f' -> canonical_text e' (Z.abs x') -> x <= x').
  { clear. intros c f n x e q c' f' n' x' e' r E Hn Hc Q Nf He Hn' Hc' R Nf' He'.
    destruct (hex_numeral_cons _ _ _ _ Hn) as (d & m & D & M & En). pose proof (hex_numeral_bound _ _ _ M) as B. destruct (hex_numeral_cons _ _ _ _ Hn') as (d' & m' & D' & M' & En'). pose proof (hex_numeral_bound _ _ _ M') as B'.
    destruct Hc as [[-> Hx]|[-> Hx]]; [|destruct Hc'; lia].
    assert (d = 1) by (apply (base_digit_inj up "1"%char d "1"%char 1 D); [split; [lia|destruct up; reflexivity]|reflexivity]). subst d.
    assert (Hd' : d' <= 1). { destruct Hc' as [[-> _]|[-> _]]; [assert (d' = 1) by (apply (base_digit_inj up "1"%char d' "1"%char 1 D'); [split; [lia|destruct up; reflexivity]|reflexivity])|
      assert (d' = 0) by (apply (base_digit_inj up "0"%char d' "0"%char 0 D'); [split; [lia|destruct up; reflexivity]|reflexivity])]; lia. }
    set (l := Z.of_nat (length f)) in *. set (l' := Z.of_nat (length f')) in *.
    assert (S16 : forall x l, 0 <= l -> (inject_Z (16 ^ l) * (2 # 1) ^ (x - 4 * l) == (2 # 1) ^ x)%Q) by (intros y k Hk; rewrite sixteen, <- two_pow_add by lia; replace (4 * k + (y - 4 * k)) with y by lia; reflexivity).
    assert (x < x' + 1); [|lia]. apply two_lt_inv. apply Qle_lt_trans with q.
    - rewrite Q, <- (S16 x l) by lia. apply Qmult_le_compat_r; [rewrite <- Zle_Qle; lia|apply Qlt_le_weak, two_pow_pos].
    - rewrite E, R, two_pow_add, <- (S16 x' l') by lia. pose proof (two_pow_pos (x' - 4 * l')) as P.
      setoid_replace (inject_Z (16 ^ l') * (2 # 1) ^ (x' - 4 * l') * (2 # 1) ^ 1)%Q with (inject_Z (2 * 16 ^ l') * (2 # 1) ^ (x' - 4 * l'))%Q by (rewrite inject_Z_mult; change ((2 # 1) ^ 1)%Q with (inject_Z 2); ring).
      apply Qmult_lt_compat_r; [exact P|]. rewrite <- Zlt_Qlt. assert (0 <= d') by apply D'. nia. }
  destruct H as [c f n x e q Hn Hc Nf He Q], K as [c' f' n' x' e' r Hn' Hc' Nf' He' R].
  assert (x = x'). { apply Z.le_antisymm; [eapply (XX c f n x e q c' f' n' x' e' r); eauto|eapply (XX c' f' n' x' e' r c f n x e q); eauto; symmetry; auto]. } subst x'. clear XX.
  rewrite (canonical_text_unique _ _ _ He He'). rewrite Q, R in E.
  assert (G : forall a b, (inject_Z a * (2 # 1) ^ (x - 4 * Z.of_nat (length f)) == inject_Z b * (2 # 1) ^ (x - 4 * Z.of_nat (length f')))%Q -> a * 16 ^ Z.of_nat (length f') = b * 16 ^ Z.of_nat (length f)).
  { clear. intros a b E. assert (X : (inject_Z (a * 16 ^ Z.of_nat (length f')) == inject_Z (b * 16 ^ Z.of_nat (length f)))%Q); [|unfold Qeq in X; cbn in X; lia].
    rewrite !inject_Z_mult, !sixteen by lia. set (l := Z.of_nat (length f)) in *. set (l' := Z.of_nat (length f')) in *.
    apply (Qmult_inj_r _ _ ((2 # 1) ^ (x - 4 * l - 4 * l'))); [pose proof (two_pow_pos (x - 4 * l - 4 * l')); intros X; rewrite X in *; discriminate|].
    rewrite <- !Qmult_assoc, <- !two_pow_add. replace (4 * l' + (x - 4 * l - 4 * l')) with (x - 4 * l) by lia. replace (4 * l + (x - 4 * l - 4 * l')) with (x - 4 * l') by lia. exact E. }
  apply G in E. clear G.
  assert (L : forall f f' c c' n n', hex_numeral up (c :: f) n -> hex_numeral up (c' :: f') n' -> no_zero_end f -> no_zero_end f' -> n * 16 ^ Z.of_nat (length f') = n' * 16 ^ Z.of_nat (length f) -> (length f <= length f')%nat -> c :: f = c' :: f').
  { clear. intros f f' c c' n n' Hn Hn' Nf Nf' E Le. set (k := (length f' - length f)%nat).
    assert (E' : n' = n * 16 ^ Z.of_nat k).
    { replace (Z.of_nat (length f')) with (Z.of_nat k + Z.of_nat (length f)) in E by lia. rewrite Z.pow_add_r in E by lia. assert (0 < 16 ^ Z.of_nat (length f)) by (apply Z.pow_pos_nonneg; lia). nia. }
    pose proof (hex_pad up (c :: f) n k Hn) as HP. assert (X : (c :: f) ++ repeat "0"%char k = c' :: f').
    { eapply hex_numeral_inj; [exact HP|exact Hn'| |symmetry; exact E']. rewrite app_length, repeat_length. cbn [length]. lia. }
    destruct k as [|k]; [rewrite app_nil_r in X; exact X|]. exfalso. injection X as -> X. rewrite <- X in Nf'.
    replace ("0"%char :: repeat "0"%char k) with (repeat "0"%char k ++ ["0"%char]) in Nf' by (rewrite <- repeat_cons; reflexivity). rewrite app_assoc in Nf'. unfold no_zero_end in Nf'. rewrite last_last in Nf'. auto. }
  assert (Ecf : c :: f = c' :: f').
  { destruct (Nat.le_ge_cases (length f) (length f')) as [Le|Le]; [eapply (L f f'); eauto|symmetry; eapply (L f' f); eauto]. }
  injection Ecf as -> ->. reflexivity.
Qed.

Lemma unsigned_unique ff up d t u : unsigned_with ff up d t -> unsigned_with ff up d u -> t = u.
Proof.
  destruct d as [s|s| |s m e]; cbn [unsigned_with]; try (intros -> ->; reflexivity). unfold positive_with. set (x := dval (S754_finite false m e)). clearbody x.
  destruct (field ff).
  - intros (q & j & Q & J & H) (r & k & R & K & G). pose proof (sig_digits_unique _ _ _ _ Q R) as E. rewrite <- E in K. pose proof (decade_unique _ _ _ J K) as <-.
    destruct ((-4 <=? j) && _); [eapply fixed_notation_unique; eauto|eapply exponent_notation_unique; eauto].
  - intros (n & N & H) (n' & N' & H').
    assert (n <= n') by (apply (nearest_even_mono _ _ _ _ N N'); apply Qle_refl). assert (n' <= n) by (apply (nearest_even_mono _ _ _ _ N' N); apply Qle_refl). replace n' with n in H' by lia.
    eapply fixed_notation_unique; eauto. reflexivity.
  - intros (q & j & Q & H) (r & k & R & G). eapply exponent_notation_unique; eauto. eapply sig_digits_unique; eauto.
  - intros H G. eapply hex_notation_unique; eauto. reflexivity.
Qed.
Lemma float_unique fl ff d t u : float_with fl ff d t -> float_with fl ff d u -> t = u.
Proof. intros (a & -> & A) (b & -> & B). f_equal. eapply unsigned_unique; eauto. Qed.

(** *** The digits of the model *)
Lemma scale_decade_P P q k : (ten k <= q < ten (k + 1))%Q -> 1 <= P -> (inject_Z (10 ^ (P - 1)) <= q * ten (P - 1 - k) < inject_Z (10 ^ P))%Q.
Proof.
  intros [A B] HP. pose proof (ten_pos (P - 1 - k)) as T. rewrite <- !ten_nonneg by lia. split.
  - replace (P - 1) with (k + (P - 1 - k)) at 1 by lia. rewrite ten_add. apply Qmult_le_compat_r; [exact A|apply Qlt_le_weak, T].
  - replace P with ((k + 1) + (P - 1 - k)) at 2 by lia. rewrite ten_add. apply Qmult_lt_compat_r; auto.
Qed.
Lemma significant_ok m e P n x : -1200 <= e <= 1200 -> Zpos m < 2 ^ 60 -> 1 <= P -> significant (Zpos m) e P = (n, x) ->
  10 ^ (P - 1) <= n < 10 ^ P /\ Z.abs x < 10 ^ 9 /\ sig_digits P (dval (S754_finite false m e)) (inject_Z n * ten (x - (P - 1))).
Proof.
  intros He Hm HP. pose proof (decade_ok m e ltac:(lia)) as K. pose proof (decade_bound m e He Hm) as KB. unfold significant.
  set (k := decade (Zpos m) e) in *. pose proof (scaled10_ok m e (P - 1 - k)) as N. set (n0 := scaled10 (Zpos m) e (P - 1 - k)) in *.
  pose proof (scale_decade_P P _ _ K HP) as [S1 S2]. pose proof (nearest_range _ _ _ _ N S1 S2) as R.
  assert (T : 10 ^ P = 10 * 10 ^ (P - 1)) by (rewrite <- Z.pow_succ_r by lia; f_equal; lia). assert (T0 : 0 < 10 ^ (P - 1)) by (apply Z.pow_pos_nonneg; lia).
  destruct (Z.eqb_spec n0 (10 ^ P)) as [E|E]; intros [= <- <-].
  - splits; try lia. exists k, n0. split; [exact K|]. split; [exact N|]. rewrite E, T. replace (k + 1 - (P - 1)) with (1 + (k - (P - 1))) by lia. rewrite ten_add, inject_Z_mult. change (ten 1) with (inject_Z 10). ring.
  - splits; try lia. exists k, n0. split; [exact K|]. split; [exact N|]. reflexivity.
Qed.
Lemma dec_digits n P : 1 <= P -> 10 ^ (P - 1) <= n < 10 ^ P -> exists c ds, dec_nonneg n = c :: ds /\ c <> "0"%char /\ digits (c :: ds) /\ nv 0 (c :: ds) = n /\ Z.of_nat (length ds) = P - 1.
Proof.
  intros HP Hn. assert (T0 : 0 < 10 ^ (P - 1)) by (apply Z.pow_pos_nonneg; lia). destruct (dec_nonneg_length n ltac:(lia)) as (c & ds & -> & Nc & D & V & A & B). exists c, ds. splits; auto.
  assert (Z.of_nat (length ds) < P) by (apply (Z.pow_lt_mono_r_iff 10); [lia|lia|unfold p10 in A; lia]).
  assert (P - 1 < Z.of_nat (S (length ds))) by (apply (Z.pow_lt_mono_r_iff 10); [lia|lia|unfold p10 in B; lia]). lia.
Qed.
Lemma exponent_letter_ok up x : Z.abs x < 10 ^ 9 -> exists e, exponent_letter up x = (if up then "E"%char else "e"%char) :: (if x <? 0 then "-"%char else "+"%char) :: e /\ exponent_digits e (Z.abs x).
Proof. intros Hx. destruct (exponent_text_ok x Hx) as (e & E & H). injection E as E. exists e. unfold exponent_letter. rewrite E. auto. Qed.
Lemma scientific_ok up pt keep P n x : 1 <= P -> 10 ^ (P - 1) <= n < 10 ^ P -> Z.abs x < 10 ^ 9 ->
  exponent_notation up pt keep (P - 1) (firstn 1 (dec_nonneg n) ++ with_digits pt (drop_unless keep (skipn 1 (dec_nonneg n))) ++ exponent_letter up x) (inject_Z n * ten (x - (P - 1))) x.
Proof.
  intros HP Hn Hx. destruct (dec_digits n P HP Hn) as (c & ds & -> & Nc & D & V & L). destruct (exponent_letter_ok up x Hx) as (e & -> & He).
  cbn [firstn skipn app]. rewrite with_digits_ok. apply (exponent_notation_ _ _ _ _ _ ds _ n); auto; [|apply drop_unless_ok|reflexivity]. rewrite <- V. apply numeral_of; [discriminate|exact D].
Qed.
Lemma general_ok up pt P n x : 1 <= P -> 10 ^ (P - 1) <= n < 10 ^ P -> Z.abs x < 10 ^ 9 ->
  let q := (inject_Z n * ten (x - (P - 1)))%Q in
  (ten x <= q < ten (x + 1))%Q /\
  if (-4 <=? x) && (x <? P) then fixed_notation pt pt (P - 1 - x) (general up pt P (dec_nonneg n) x) q
  else exponent_notation up pt pt (P - 1) (general up pt P (dec_nonneg n) x) q x.
Proof.
  intros HP Hn Hx q. split.
  { replace P with (P - 1 + 1) in Hn at 2 by lia. pose proof (scaled_decade n (P - 1) (x - (P - 1)) ltac:(lia) Hn) as H. rewrite Z.sub_add in H. exact H. }
  unfold general. replace ((x <? -4) || (P <=? x)) with (negb ((-4 <=? x) && (x <? P))) by lia.
  destruct (Z.leb_spec (-4) x) as [X|X], (Z.ltb_spec x P) as [Y|Y]; cbn [andb negb]; try (apply scientific_ok; auto).
  destruct (dec_digits n P HP Hn) as (c & ds & -> & Nc & D & V & L). rewrite !with_digits_ok.
  assert (Eq : (q == inject_Z n * ten (- (P - 1 - x)))%Q) by (unfold q; replace (- (P - 1 - x)) with (x - (P - 1)) by lia; reflexivity).
  destruct (Z.leb_spec 0 x) as [X0|X0].
  - set (k := Z.to_nat (x + 1)). set (i := firstn k (c :: ds)). set (f := skipn k (c :: ds)).
    assert (Eif : c :: ds = i ++ f) by (symmetry; apply firstn_skipn).
    assert (Li : exists i', i = c :: i') by (unfold i, k; destruct (Z.to_nat (x + 1)) eqn:K; [lia|eexists; reflexivity]). destruct Li as [i' Ei].
    assert (Lf : Z.of_nat (length f) = P - 1 - x) by (unfold f, k; rewrite skipn_length; cbn [length]; lia).
    assert (Di : digits i) by (unfold i; apply Forall_firstn_; exact D).
    apply (fixed_notation_ _ _ _ i (nv 0 i) f _ n); auto; [| |rewrite <- Eif, <- V; apply numeral_of; [discriminate|exact D]|apply drop_unless_ok].
    + rewrite Ei in Di |- *. apply ct_pos; auto. apply numeral_of; [discriminate|exact Di].
    + apply (nv_bound i Di).
  - set (f := repeat ZERO (Z.to_nat (- x - 1)) ++ c :: ds).
    assert (D0 : digits ([ZERO] ++ f)) by (apply Forall_app; split; [constructor; auto|apply Forall_app; split; [apply repeat_zero_digits|exact D]]).
    assert (V0 : nv 0 ([ZERO] ++ f) = n) by (unfold f; rewrite !nv_app0, (proj2 (repeat_zero_digits _)), V; change (nv 0 [ZERO]) with 0; lia).
    assert (Lf : Z.of_nat (length f) = P - 1 - x) by (unfold f; rewrite app_length, repeat_length; cbn [length]; lia).
    apply (fixed_notation_ pt pt _ [ZERO] 0 f _ n); auto; [constructor|lia|rewrite <- V0; apply numeral_of; [discriminate|exact D0]|apply drop_unless_ok].
Qed.
Lemma fixed_magnitude_notation pt n p : 0 <= n -> 0 <= p -> fixed_notation pt true p (fixed_magnitude n p ++ (if pt && (p =? 0) then [DOT] else [])) (inject_Z n * ten (- p)).
Proof.
  intros Hn Hp. destruct (dec_nonneg_ok n Hn) as (D & V & N). pose proof (dec_nonneg_canonical n Hn) as C.
  assert (G : exists i a f, fixed_magnitude n p ++ (if pt && (p =? 0) then [DOT] else []) = i ++ point_digits pt f /\ canonical_text i a /\ 0 <= a /\ digits (i ++ f) /\ i <> [] /\ nv 0 (i ++ f) = n /\ Z.of_nat (length f) = p).
  { unfold fixed_magnitude. destruct (Z.eqb_spec p 0) as [->|Np].
    - exists (dec_nonneg n), n, []. unfold pad_zeros. assert (L : (1 - length (dec_nonneg n) = 0)%nat) by (destruct (dec_nonneg n); [contradiction|cbn; lia]). cbn [Z.to_nat]. rewrite L. cbn [repeat app]. rewrite app_nil_r. splits; auto. destruct pt; reflexivity.
    - rewrite andb_false_r, app_nil_r. set (s := dec_nonneg n) in *. destruct (Nat.le_gt_cases (S (Z.to_nat p)) (length s)) as [L|L].
      + unfold pad_zeros. replace (S (Z.to_nat p) - length s)%nat with 0%nat by lia. cbn [repeat app]. set (k := (length s - Z.to_nat p)%nat).
        assert (Pn : 0 < n). { destruct (Z.eq_dec n 0) as [->|]; [|lia]. cbn in L. lia. }
        destruct (dec_nonneg_length n Pn) as (c & ds & Es & Nc & _). fold s in Es.
        exists (firstn k s), (nv 0 (firstn k s)), (skipn k s). assert (Di : digits (firstn k s)) by (apply Forall_firstn_; exact D).
        assert (Ei : exists i', firstn k s = c :: i') by (rewrite Es; unfold k; rewrite Es in *; cbn [length] in L |- *; destruct (S (length ds) - Z.to_nat p)%nat eqn:K; [lia|eexists; reflexivity]). destruct Ei as [i' Ei].
        assert (Lf : length (skipn k s) = Z.to_nat p) by (rewrite skipn_length; unfold k; lia).
        rewrite firstn_skipn. splits; auto; try lia.
        * unfold point_digits. destruct (skipn k s) eqn:Ek; [cbn in Lf; lia|reflexivity].
        * rewrite Ei in Di |- *. apply ct_pos; auto. apply numeral_of; [discriminate|exact Di].
        * apply (nv_bound _ Di).
        * rewrite Ei. discriminate.
      + assert (Ls : length (pad_zeros (S (Z.to_nat p)) s) = S (Z.to_nat p)) by (unfold pad_zeros; rewrite app_length, repeat_length; lia). rewrite Ls. replace (S (Z.to_nat p) - Z.to_nat p)%nat with 1%nat by lia.
        unfold pad_zeros. destruct (S (Z.to_nat p) - length s)%nat as [|j] eqn:J; [lia|]. cbn [repeat app firstn skipn].
        exists [ZERO], 0, (repeat ZERO j ++ s). splits; auto; try lia.
        * unfold point_digits. destruct (repeat ZERO j ++ s) eqn:Ek; [|reflexivity]. apply app_eq_nil in Ek as [_ Ek]. contradiction.
        * constructor.
        * apply Forall_app; split; [constructor; auto|apply Forall_app; split; [apply repeat_zero_digits|exact D]].
        * discriminate.
        * rewrite !nv_app0, (proj2 (repeat_zero_digits _)), V. change (nv 0 [ZERO]) with 0. lia.
        * rewrite app_length, repeat_length. lia. }
  destruct G as (i & a & f & -> & Ci & Ha & Df & Ni & Vf & Lf). apply (fixed_notation_ _ _ _ i a f f n); auto; [|reflexivity|reflexivity].
  rewrite <- Vf. apply numeral_of; [destruct i; [contradiction|discriminate]|exact Df].
Qed.
Lemma double_hex s m e : double (S754_finite s m e) -> Zpos m < 2 ^ 53 /\ -1074 <= e /\ (Zpos m < 2 ^ 52 -> e = -1074).
Proof.
  unfold double, valid_binary, bounded, canonical_mantissa, fexp, SpecFloat.emin. intros H. apply andb_prop in H as [H1 H2]. apply Zeq_bool_eq in H1. apply Zle_bool_imp_le in H2.
  assert (P : forall m, 2 ^ (Zpos (digits2_pos m) - 1) <= Zpos m < 2 ^ Zpos (digits2_pos m)).
  { clear. induction m as [m IH|m IH|]; cbn [digits2_pos]; try (cbn; lia); rewrite Pos2Z.inj_succ, Z.sub_1_r, Z.pred_succ, Z.pow_succ_r by lia; replace (Zpos (digits2_pos m)) with (Z.succ (Zpos (digits2_pos m) - 1)) at 1 by lia; rewrite Z.pow_succ_r by lia; lia. }
  specialize (P m). splits; [|lia|].
  - apply (Z.lt_le_trans _ _ _ (proj2 P)). apply Z.pow_le_mono_r; lia.
  - intros L. assert (Zpos (digits2_pos m) - 1 < 52) by (apply (Z.pow_lt_mono_r_iff 2); lia). lia.
Qed.
Lemma hexfloat_ok up pt m e : double (S754_finite false m e) -> hex_notation up pt (hexfloat up pt (Zpos m) e) (dval (S754_finite false m e)).
Proof.
  intros H. destruct (double_hex _ _ _ H) as (A & B & C). unfold hexfloat, hex_exponent. cbn [app]. rewrite with_digits_ok.
  pose proof (Z.div_mod (Zpos m) (2 ^ 52) ltac:(lia)) as DM. pose proof (Z.mod_pos_bound (Zpos m) (2 ^ 52) ltac:(lia)) as MB.
  assert (Hq : Zpos m / 2 ^ 52 = 0 \/ Zpos m / 2 ^ 52 = 1) by (assert (0 <= Zpos m / 2 ^ 52) by (apply Z.div_pos; lia); assert (Zpos m / 2 ^ 52 < 2) by (apply Z.div_lt_upper_bound; lia); lia).
  destruct (hex_digits_ok 13 up (Zpos m mod 2 ^ 52)) as [HD HL]; [change (16 ^ Z.of_nat 13) with (2 ^ 52); exact MB|].
  set (fs := hex_digits 13 up (Zpos m mod 2 ^ 52)) in *. destruct (strip_zeros_ok fs) as (j & Ej & Nf). set (f := strip_zeros fs) in *.
  set (c := digit_char (Zpos m / 2 ^ 52)).
  assert (Dc : base_digit 16 up c (Zpos m / 2 ^ 52)) by (unfold c; destruct Hq as [-> | ->]; (split; [lia|destruct up; reflexivity])).
  (* the digits dropped are zeros *)
  assert (F : exists m', hex_numeral up f m' /\ Zpos m mod 2 ^ 52 = m' * 16 ^ Z.of_nat j).
  { clear - Ej HD. rewrite Ej in HD. clearbody f. clear Ej. revert HD. generalize (Zpos m mod 2 ^ 52) as z. induction j as [|j IH]; intros z H.
    - rewrite app_nil_r in H. exists z. split; [exact H|cbn; lia].
    - replace (repeat ZERO (S j)) with (repeat ZERO j ++ [ZERO]) in H by (rewrite <- repeat_cons; reflexivity). rewrite app_assoc in H.
      inversion H as [E0|t n c d K D E]; [destruct (f ++ repeat ZERO j); discriminate|]. apply app_inj_tail in E as [-> ->]. destruct (IH _ K) as (m' & M & ->). exists m'. split; [exact M|].
      assert (d = 0) by (apply (base_digit_inj up ZERO d ZERO 0 D); [split; [lia|destruct up; reflexivity]|reflexivity]). subst d. rewrite Nat2Z.inj_succ, Z.pow_succ_r by lia. ring. }
  destruct F as (m' & M & Em). assert (Lj : (length f + j = 13)%nat) by (rewrite <- HL, Ej, app_length, repeat_length; reflexivity).
  apply (hex_notation_ _ _ c f ((Zpos m / 2 ^ 52) * 16 ^ Z.of_nat (length f) + m') (e + 52)).
  - clear - M Dc. revert M Dc. generalize (Zpos m / 2 ^ 52) as z. intros z M Dc. induction M as [|t n c' d H IH D].
    + change (Z.of_nat (length [])) with 0. replace (z * 16 ^ 0 + 0) with (16 * 0 + z) by lia. apply (hex_snoc up [] 0 c z); [constructor|exact Dc].
    + rewrite app_length, Nat2Z.inj_add, Z.pow_add_r by lia. change (16 ^ Z.of_nat (length [c'])) with 16. replace (z * (16 ^ Z.of_nat (length t) * 16) + (16 * n + d)) with (16 * (z * 16 ^ Z.of_nat (length t) + n) + d) by ring.
      apply (hex_snoc up (c :: t) _ c' d IH D).
  - unfold c. destruct Hq as [Q|Q]; rewrite Q; [right; split; [reflexivity|rewrite C; lia]|left; split; [reflexivity|lia]].
  - exact Nf.
  - apply dec_nonneg_canonical. lia.
  - assert (X : Zpos m = ((Zpos m / 2 ^ 52) * 16 ^ Z.of_nat (length f) + m') * 16 ^ Z.of_nat j).
    { rewrite Z.mul_add_distr_r, <- Em, <- Z.mul_assoc, <- Z.pow_add_r by lia. replace (Z.of_nat (length f) + Z.of_nat j) with 13 by lia. change (16 ^ 13) with (2 ^ 52). lia. }
    unfold dval. rewrite X at 1. rewrite inject_Z_mult, sixteen, <- Qmult_assoc, <- two_pow_add by lia. replace (4 * Z.of_nat j + e) with (e + 52 - 4 * Z.of_nat (length f)) by lia. reflexivity.
Qed.
Lemma magnitude_ok ff up m e : double (S754_finite false m e) -> positive_with ff up (dval (S754_finite false m e)) (magnitude ff up (Zpos m) e).
Proof.
  intros H. destruct (double_bounds _ _ _ H) as [He Hm]. unfold positive_with, magnitude, digits_asked, stream_precision. set (p := if precision ff <? 0 then 6 else precision ff). assert (Hp : 0 <= p) by (unfold p; destruct (Z.ltb_spec (precision ff) 0); lia).
  destruct (field ff).
  - replace (if p =? 0 then 1 else p) with (Z.max 1 p) by (destruct (Z.eqb_spec p 0); lia). set (P := Z.max 1 p). destruct (significant (Zpos m) e P) as [n x] eqn:E.
    destruct (significant_ok m e P n x He Hm ltac:(lia) E) as (Rn & Rx & Sg). destruct (general_ok up (showpoint ff) P n x ltac:(lia) Rn Rx) as [D G]. exists (inject_Z n * ten (x - (P - 1)))%Q, x. auto.
  - exists (scaled (Zpos m) e p). pose proof (scaled_ok (Zpos m) e p Hp ltac:(lia)) as N. split.
    + eapply nearest_even_eq; [|exact N]. unfold dval. rewrite ten_nonneg by exact Hp. reflexivity.
    + apply fixed_magnitude_notation; [|exact Hp]. destruct N as [N _]. apply Qabs_Qle_condition in N as [_ N].
      assert (X : (inject_Z (-1) < inject_Z (scaled (Zpos m) e p))%Q); [|rewrite <- Zlt_Qlt in X; lia].
      assert (Y : (0 <= inject_Z (Zpos m) * (2 # 1) ^ e * inject_Z (10 ^ p))%Q).
      { apply Qmult_le_0_compat; [apply Qmult_le_0_compat; [rewrite <- (Zle_Qle 0); lia|apply Qlt_le_weak, two_pow_pos]|]. rewrite <- (Zle_Qle 0). apply Z.pow_nonneg. lia. }
      change (inject_Z (-1)) with (-(1))%Q. lra.
  - destruct (significant (Zpos m) e (p + 1)) as [n x] eqn:E. destruct (significant_ok m e (p + 1) n x He Hm ltac:(lia) E) as (Rn & Rx & Sg). exists (inject_Z n * ten (x - (p + 1 - 1)))%Q, x. split; [exact Sg|].
    unfold scientific. pose proof (scientific_ok up (showpoint ff) true (p + 1) n x ltac:(lia) Rn Rx) as S0. replace (p + 1 - 1) with p in * by lia. exact S0.
  - apply hexfloat_ok. exact H.
Qed.
Lemma zero_magnitude_ok ff up : zero_magnitude ff up = zero_with ff up.
Proof.
  unfold zero_magnitude, zero_with, digits_asked, stream_precision. set (p := if precision ff <? 0 then 6 else precision ff). assert (Hp : 0 <= p) by (unfold p; destruct (Z.ltb_spec (precision ff) 0); lia). set (pt := showpoint ff).
  assert (SZ : forall n, strip_zeros (repeat ZERO n) = []).
  { intros n. unfold strip_zeros. assert (R : rev (repeat ZERO n) = repeat ZERO n). { induction n as [|n IH]; [reflexivity|]. cbn [repeat rev]. rewrite IH, <- repeat_cons. reflexivity. } rewrite R.
    assert (G : drop_trailing (repeat ZERO n) = []); [|rewrite G; reflexivity]. clear. induction n as [|n IH]; [reflexivity|]. cbn [repeat drop_trailing]. rewrite Ascii.eqb_refl. exact IH. }
  destruct (field ff).
  - replace (if p =? 0 then 1 else p) with (Z.max 1 p) by (destruct (Z.eqb_spec p 0); lia). set (P := Z.max 1 p). unfold general. replace ((0 <? -4) || (P <=? 0)) with false by lia. cbn [Z.leb]. change (Z.to_nat (0 + 1)) with 1%nat.
    replace (Z.to_nat P) with (S (Z.to_nat (P - 1))) by lia. cbn [repeat firstn skipn app]. f_equal. unfold drop_unless. destruct pt; [|rewrite SZ; reflexivity]. unfold with_digits. destruct (repeat ZERO (Z.to_nat (P - 1))) eqn:E; [|rewrite <- E; reflexivity]. 
    fold ZERO. rewrite E. reflexivity.
  - unfold fixed_magnitude. destruct (Z.eqb_spec p 0) as [E|E].
    + rewrite E. cbn. destruct pt; reflexivity.
    + rewrite andb_false_r, app_nil_r. change (dec_nonneg 0) with [ZERO]. unfold pad_zeros. cbn [length]. replace (S (Z.to_nat p) - 1)%nat with (Z.to_nat p) by lia. rewrite <- repeat_cons.
      cbn [length]. rewrite repeat_length. replace (S (Z.to_nat p) - Z.to_nat p)%nat with 1%nat by lia. cbn [firstn skipn app]. f_equal. unfold point_digits. fold ZERO. destruct (repeat ZERO (Z.to_nat p)) eqn:R; [|reflexivity]. apply (f_equal (@length ascii)) in R. rewrite repeat_length in R. cbn in R. lia.
  - unfold scientific. replace (Z.to_nat (p + 1)) with (S (Z.to_nat p)) by lia. cbn [repeat firstn skipn app]. f_equal. rewrite with_digits_ok. f_equal. destruct up; reflexivity.
  - unfold with_digits, hex_exponent. destruct up, pt; reflexivity.
Qed.
Lemma float_text_ok fl ff d : double d -> float_with fl ff d (float_text fl ff d).
Proof.
  intros H. unfold float_with. destruct d as [s|s| |s m e]; cbn [float_text unsigned_with]; eexists; (split; [reflexivity|]); try reflexivity; [apply zero_magnitude_ok|].
  apply magnitude_ok. exact H.
Qed.

(** *** Padding *)
Definition plain (t : chars) : Prop := exists c r, t = c :: r /\ (c = ZERO -> match r with b :: _ => b <> "x"%char /\ b <> "X"%char | [] => True end) /\ c <> MINUS /\ c <> "+"%char.
Lemma plain_inner t : plain t -> inner_length t = 0%nat.
Proof.
  intros (c & r & -> & H & N1 & N2). cbn [inner_length]. destruct (Ascii.eqb_spec c ZERO) as [->|_].
  - destruct r as [|b r]; [reflexivity|]. destruct (H eq_refl) as [X1 X2]. destruct (Ascii.eqb_spec b "x"%char); [contradiction|]. destruct (Ascii.eqb_spec b "X"%char); [contradiction|]. reflexivity.
  - destruct (Ascii.eqb_spec c MINUS); [contradiction|]. destruct (Ascii.eqb_spec c "+"%char); [contradiction|]. reflexivity.
Qed.
Lemma digit_not c : isdigit c = true -> c <> "x"%char /\ c <> "X"%char /\ c <> MINUS /\ c <> "+"%char.
Proof. intros H. splits; intros ->; discriminate. Qed.
Lemma point_digits_head pt keep f g r : digits f -> shortened keep f g ->
  match r with b :: _ => b <> "x"%char /\ b <> "X"%char | [] => True end -> match point_digits pt g ++ r with b :: _ => b <> "x"%char /\ b <> "X"%char | [] => True end.
Proof. intros _ _ H. destruct g as [|b g]; cbn [point_digits app]; [destruct pt; [cbn; split; discriminate|exact H]|split; discriminate]. Qed.
Lemma fixed_notation_plain pt keep k t q : fixed_notation pt keep k t q -> plain t.
Proof.
  intros [i a f g n q' Ci Ha Hn _ Sf _]. apply numeral_iff in Hn as (_ & D & _). unfold digits in D. apply Forall_app in D as [Di Df].
  destruct i as [|c i]; [inversion Ci|]. inversion Di as [|? ? Dc Di']; subst. destruct (digit_not c Dc) as (_ & _ & N1 & N2). exists c, (i ++ point_digits pt g). splits; auto. intros _.
  destruct i as [|b i]; [|inversion Di' as [|? ? Db _]; subst; cbn [app]; destruct (digit_not b Db) as (X1 & X2 & _); auto].
  pose proof (point_digits_head pt keep f g [] Df Sf I) as H. rewrite app_nil_r in H. exact H.
Qed.
Lemma exponent_notation_plain up pt keep k t q x : exponent_notation up pt keep k t q x -> plain t.
Proof.
  intros [c f g n e y q' Hn Hc _ Sf _ _]. apply numeral_iff in Hn as (_ & D & _). inversion D as [|? ? Dc _]; subst. destruct (digit_not c Dc) as (_ & _ & N1 & N2).
  eexists c, _. split; [reflexivity|]. splits; auto. intros ->. contradiction Hc. reflexivity.
Qed.
Lemma inner_length_ok fl ff d t : float_with fl ff d t ->
  inner_length t = match float_sign fl d with _ :: _ => 1%nat
                   | [] => match field ff, d with Hexfloat, S754_zero _ | Hexfloat, S754_finite _ _ _ => 2%nat | _, _ => 0%nat end end.
Proof.
  intros (u & -> & U). destruct (float_sign fl d) as [|c l] eqn:E.
  - cbn [app]. clear E. destruct d as [s|s| |s m e]; cbn [unsigned_with] in U.
    + subst u. destruct ff as [fi p pt]. unfold zero_with. cbn [field precision showpoint]. set (P := if p <? 0 then 6 else p). clearbody P. destruct fi.
      * destruct pt; reflexivity.
      * apply plain_inner. eexists _, _. split; [reflexivity|]. splits; try discriminate. intros _. destruct (Z.to_nat P); [destruct pt; [split; discriminate|exact I]|split; discriminate].
      * apply plain_inner. eexists _, _. split; [reflexivity|]. splits; try discriminate. intros _. destruct (Z.to_nat P); [destruct pt; [split; discriminate|destruct (uppercase fl); split; discriminate]|split; discriminate].
      * destruct (uppercase fl); reflexivity.
    + subst u. destruct (uppercase fl), (field ff); reflexivity.
    + subst u. destruct (uppercase fl), (field ff); reflexivity.
    + unfold positive_with in U. destruct (field ff).
      * destruct U as (q & x & _ & _ & U). destruct ((-4 <=? x) && _); apply plain_inner; [eapply fixed_notation_plain; eauto|eapply exponent_notation_plain; eauto].
      * destruct U as (n & _ & U). apply plain_inner. eapply fixed_notation_plain; eauto.
      * destruct U as (q & x & _ & U). apply plain_inner. eapply exponent_notation_plain; eauto.
      * destruct U as [c f n x e' q _ _ _ _ _]. destruct (uppercase fl); reflexivity.
  - unfold float_sign in E. destruct (negative_float d); [injection E as <- <-; reflexivity|]. destruct (showpos fl); [injection E as <- <-; reflexivity|discriminate].
Qed.
Lemma unsigned_nonempty ff up d u : unsigned_with ff up d u -> field ff = Hexfloat -> match d with S754_zero _ | S754_finite _ _ _ => (2 <= length u)%nat | _ => True end.
Proof.
  intros U E. destruct d as [s|s| |s m e]; cbn [unsigned_with] in U; auto.
  - subst u. unfold zero_with. rewrite E. destruct up; cbn; lia.
  - unfold positive_with in U. rewrite E in U. destruct U. cbn [length]. lia.
Qed.
Lemma float_insert_padded fl ff o d t : float_text fl ff d = t -> double d -> exists u, float_insert fl ff o d = mkOut (obuf o ++ u) 0 (ofill o) /\ padded fl ff d (owidth o) (ofill o) t u.
Proof.
  intros <- H. pose proof (float_text_ok fl ff d H) as T. unfold float_insert, padded. set (t := float_text fl ff d) in *. clearbody t. eexists. split; [reflexivity|].
  destruct (adjust fl); auto. exists (firstn (inner_length t) t), (skipn (inner_length t) t). split; [symmetry; apply firstn_skipn|]. split; [reflexivity|].
  rewrite firstn_length_le; [apply inner_length_ok, T|]. rewrite (inner_length_ok fl ff d t T). destruct T as (u & -> & U). rewrite app_length.
  destruct (float_sign fl d); [|cbn [length]; lia]. destruct (field ff) eqn:E; try lia. pose proof (unsigned_nonempty _ _ _ _ U E) as X. cbn [length]. destruct d; try lia.
Qed.
(** without a width *)
Lemma float_insert_0 fl ff o d : owidth o = 0 -> float_insert fl ff o d = mkOut (obuf o ++ float_text fl ff d) 0 (ofill o).
Proof. intros W. unfold float_insert. rewrite W. cbn [Z.to_nat Nat.sub repeat app]. rewrite app_nil_r. destruct (adjust fl); try reflexivity. rewrite firstn_skipn. reflexivity. Qed.
Lemma put_str_0 fl o t : owidth o = 0 -> put_str fl o t = mkOut (obuf o ++ t) 0 (ofill o).
Proof. intros W. unfold put_str. rewrite W. cbn [Z.to_nat Nat.sub repeat app]. rewrite app_nil_r. destruct (adjust fl); reflexivity. Qed.

(** *** Default flags; fixed *)
Definition default_flags : flags := mkFlags Dec Right false false false.
Definition default_float : float_flags := mkFloat General 6 false.
Lemma default_text d : float_text default_flags default_float d = general_text d.
Proof.
  destruct d as [s|s| |s m e]; try reflexivity. cbn [float_text general_text]. unfold sign_of. cbn [showpos default_flags uppercase]. f_equal.
  unfold magnitude, general_magnitude, significant, digits_asked, stream_precision, default_float. cbn [field precision showpoint]. change (6 <? 0) with false. cbv iota. change (6 =? 0) with false. cbv iota zeta.
  change (10 ^ 6) with 1000000. change (10 ^ (6 - 1)) with 100000. change (6 - 1) with 5.
  assert (W : forall s, with_digits false (drop_unless false s) = with_point s) by (intros z; unfold with_digits, drop_unless, with_point; destruct (strip_zeros z); reflexivity).
  destruct (scaled10 (Zpos m) e (5 - decade (Zpos m) e) =? 1000000); unfold general; rewrite !W; reflexivity.
Qed.
Lemma default_insert o d : float_insert default_flags default_float o d = double_print o d.
Proof. unfold float_insert, double_print, put. rewrite default_text. reflexivity. Qed.
Lemma default_put o t : put_str default_flags o t = put o t.
Proof. reflexivity. Qed.
Lemma fixed_stream_ok x p : fixed_stream x p = fixed_text x (stream_precision p).
Proof.
  unfold fixed_stream. rewrite float_insert_0 by reflexivity. cbn [obuf app]. assert (E : forall n q, fixed_magnitude n q ++ (if false && (q =? 0) then [DOT] else []) = fixed_magnitude n q) by (intros; apply app_nil_r).
  destruct x as [s|s| |s m e]; cbn [float_text fixed_text]; try reflexivity; unfold zero_magnitude, magnitude, digits_asked; cbn [field precision showpoint uppercase]; rewrite E; destruct s; reflexivity.
Qed.

(** *** Vec<double>, Mat<double> *)
Lemma insert_elements_0 fl ff x : forall o, owidth o = 0 -> insert_elements fl ff o x = mkOut (obuf o ++ separated (map (float_text fl ff) x)) 0 (ofill o).
Proof.
  induction x as [|d x IH]; intros o W; [cbn; rewrite app_nil_r, <- W; destruct o; reflexivity|]. destruct x as [|d' x]; [apply float_insert_0, W|].
  change (insert_elements fl ff o (d :: d' :: x)) with (insert_elements fl ff (put_str fl (float_insert fl ff o d) [","%char; " "%char]) (d' :: x)).
  rewrite float_insert_0, put_str_0, IH by auto. cbn [obuf ofill]. change (separated (map (float_text fl ff) (d :: d' :: x))) with (float_text fl ff d ++ [","%char; " "%char] ++ separated (map (float_text fl ff) (d' :: x))).
  rewrite <- !app_assoc. reflexivity.
Qed.
Lemma vec_insert_ok fl ff o x : vec_insert fl ff o x =
  mkOut (obuf (put_str fl o ["("%char]) ++ separated (map (float_text fl ff) x) ++ [")"%char]) 0 (ofill o).
Proof. unfold vec_insert. rewrite insert_elements_0 by reflexivity. rewrite put_str_0 by reflexivity. cbn [obuf ofill]. rewrite <- app_assoc. reflexivity. Qed.
Lemma default_vec o x : V_print double_print o x = Ok (vec_insert default_flags default_float o x).
Proof.
  rewrite (vec_pieces_ok double_print (fun d => [Txt (general_text d)])) by reflexivity. f_equal. unfold vec_insert, vec_pieces.
  change (Txt ["("%char] :: ?l) with ([Txt ["("%char]] ++ l). rewrite !put_all_app. rewrite default_put. cbn [put_all fold_left put_piece]. f_equal. change (put_str default_flags o ["("%char]) with (put o ["("%char]).
  generalize (put o ["("%char]) as p. clear o. induction x as [|d x IH]; intros p; [reflexivity|]. destruct x as [|d' x]; [symmetry; apply default_insert|].
  change (comma_pieces (fun d => [Txt (general_text d)]) (d :: d' :: x)) with ([Txt (general_text d); Txt [","%char; " "%char]] ++ comma_pieces (fun d => [Txt (general_text d)]) (d' :: x)).
  rewrite put_all_app, IH. change (insert_elements default_flags default_float p (d :: d' :: x)) with (insert_elements default_flags default_float (put_str default_flags (float_insert default_flags default_float p d) [","%char; " "%char]) (d' :: x)).
  rewrite default_insert, default_put. reflexivity.
Qed.
Section Matrix.
Context (fl : flags) (ff : float_flags).
Notation cell := (fun g => fun o j => put_str fl (float_insert fl ff o (g j)) [" "%char]).
Notation nextline := (fun (r c : nat) g => fun o i => let o := row_insert fl ff c (g i) o in if (i <? r - 1)%nat then mkOut (obuf o ++ [NEWLINE]) (owidth o) (ofill o) else o).
Lemma out_nil o : owidth o = 0 -> o = mkOut (obuf o ++ []) 0 (ofill o).
Proof. intros <-. rewrite app_nil_r. destruct o; reflexivity. Qed.
Lemma cells_0 (g : nat -> spec_float) n : forall a o, owidth o = 0 -> fold_left (cell g) (seq a n) o = mkOut (obuf o ++ flat_map (fun j => float_text fl ff (g j) ++ [" "%char]) (seq a n)) 0 (ofill o).
Proof.
  induction n as [|n IH]; intros a o W; cbn [seq fold_left flat_map]; [apply out_nil, W|]. rewrite float_insert_0, put_str_0, IH by auto. cbn [obuf ofill]. rewrite <- !app_assoc. reflexivity.
Qed.
Lemma lines_0 r c (g : nat -> nat -> spec_float) n : forall a o, owidth o = 0 ->
  fold_left (nextline r c g) (seq a n) o = mkOut (obuf o ++ flat_map (fun i => row_text c (fun j => float_text fl ff (g i j)) ++ (if (i <? r - 1)%nat then [NEWLINE] else [])) (seq a n)) 0 (ofill o).
Proof.
  induction n as [|n IH]; intros a o W; cbn [seq fold_left flat_map]; [apply out_nil, W|]. assert (R : row_insert fl ff c (g a) o = mkOut (obuf o ++ row_text c (fun j => float_text fl ff (g a j))) 0 (ofill o)) by (apply cells_0, W). rewrite R. cbv zeta. cbn [obuf owidth ofill].
  destruct (a <? r - 1)%nat; rewrite IH by reflexivity; cbn [obuf ofill]; rewrite <- !app_assoc; reflexivity.
Qed.
Lemma lines_empty r (g : nat -> nat -> spec_float) n : forall a o,
  obuf (fold_left (nextline r 0%nat g) (seq a n) o) = obuf o ++ flat_map (fun i => [] ++ (if (i <? r - 1)%nat then [NEWLINE] else [])) (seq a n).
Proof.
  induction n as [|n IH]; intros a o; cbn [seq fold_left flat_map]; [rewrite app_nil_r; reflexivity|]. rewrite IH. unfold row_insert. cbn [seq fold_left]. destruct (a <? r - 1)%nat; cbn [obuf app]; rewrite <- ?app_assoc; reflexivity.
Qed.
(** the first entry takes the width *)
Lemma mat_insert_ok r c g o u : float_insert fl ff o (g 0 0)%nat = mkOut (obuf o ++ u) 0 (ofill o) ->
  obuf (mat_insert fl ff r c g o) = obuf o ++ mat_text r c (fun i j => if ((i =? 0) && (j =? 0))%nat then u else float_text fl ff (g i j)).
Proof.
  intros U. set (t := fun i j => if ((i =? 0) && (j =? 0))%nat then u else float_text fl ff (g i j)). unfold mat_text. rewrite (joined_flat (fun i => row_text c (t i)) r 0). rewrite Nat.add_0_l. unfold mat_insert.
  destruct c as [|c]; [apply lines_empty|]. destruct r as [|r]; [cbn; rewrite app_nil_r; reflexivity|].
  cbn [seq fold_left flat_map]. set (b := (0 <? S r - 1)%nat). assert (R : row_insert fl ff (S c) (g 0%nat) o = mkOut (obuf o ++ u ++ [" "%char] ++ flat_map (fun j => float_text fl ff (g 0%nat j) ++ [" "%char]) (seq 1 c)) 0 (ofill o)).
  { unfold row_insert. cbn [seq fold_left]. rewrite U, put_str_0 by reflexivity. rewrite cells_0 by reflexivity. cbn [obuf ofill]. rewrite <- !app_assoc. reflexivity. }
  rewrite R. cbv zeta. cbn [obuf owidth ofill].
  assert (T : row_text (S c) (t 0%nat) = u ++ [" "%char] ++ flat_map (fun j => float_text fl ff (g 0%nat j) ++ [" "%char]) (seq 1 c)).
  { unfold row_text. cbn [seq flat_map]. rewrite <- app_assoc. do 2 f_equal. rewrite !flat_map_concat_map. f_equal. apply map_ext_in. intros j Hj. apply in_seq in Hj. unfold t. destruct (Nat.eqb_spec j 0); [lia|]. reflexivity. }
  assert (L : flat_map (fun i => row_text (S c) (t i) ++ (if (i <? S r - 1)%nat then [NEWLINE] else [])) (seq 1 r) = flat_map (fun i => row_text (S c) (fun j => float_text fl ff (g i j)) ++ (if (i <? S r - 1)%nat then [NEWLINE] else [])) (seq 1 r)).
  { rewrite !flat_map_concat_map. f_equal. apply map_ext_in. intros i Hi. apply in_seq in Hi. f_equal. unfold row_text. apply flat_map_ext. intros j. unfold t. destruct (Nat.eqb_spec i 0); [lia|]. reflexivity. }
  rewrite T, L. destruct b; rewrite lines_0 by reflexivity; cbn [obuf ofill]; rewrite <- !app_assoc; reflexivity.
Qed.
End Matrix.
Lemma default_mat o m r c g : mat_of eq m r c g -> M_print double_ops double_print o m = Ok (mat_insert default_flags default_float r c g o).
Proof.
  intros Hm. rewrite (mat_pieces_ok double_print (fun d => [Txt (general_text d)]) double_ops o m r c g Hm) by reflexivity. f_equal. unfold mat_insert, mat_pieces.
  assert (R : forall f n a o, put_all o (flat_map (fun j => [Txt (general_text (f j))] ++ [Txt [" "%char]]) (seq a n)) =
    fold_left (fun o j => put_str default_flags (float_insert default_flags default_float o (f j)) [" "%char]) (seq a n) o).
  { intros f n. induction n as [|n IH]; intros a p; [reflexivity|]. cbn [seq flat_map fold_left]. rewrite put_all_app, IH. rewrite default_insert. reflexivity. }
  revert o. generalize (seq 0 r) as l. induction l as [|i l IH]; intros o; [reflexivity|]. cbn [flat_map fold_left]. rewrite !put_all_app, IH. f_equal. unfold row_pieces. rewrite R. fold (row_insert default_flags default_float c (g i) o).
  destruct (i <? r - 1)%nat; reflexivity.
Qed.
