From Coq Require Import Ascii String QArith Qabs Qpower Lqa SpecFloat ZifyBool.
From Verif Require Import Base FracModel FracSpec IntBasics IOModel IOSpec IOProofs MatModel MatSpec MatPrint MiscProofs MiscText CommonSpec FlagsModel FlagsSpec FormatSpec FormatProofs FloatModel FloatSpec FloatProofs FracDouble ReadSpec.
Local Open Scope list_scope.
Local Open Scope Z_scope.

(** *** Distance between numbers of 53 bits *)
Lemma two_shift m e k : k <= e -> (inject_Z m * (2 # 1) ^ e == inject_Z (m * 2 ^ (e - k)) * (2 # 1) ^ k)%Q.
Proof. intros H. rewrite inject_Z_mult, <- Qpow2_nonneg by lia. rewrite <- Qmult_assoc, <- two_pow_add. replace (e - k + k) with e by lia. reflexivity. Qed.
Lemma gap s m e y : double (S754_finite s m e) -> bits53 y -> let x := dval (S754_finite false m e) in ~ (x == y)%Q ->
  (x - Qabs (x - y) < inject_Z (2 ^ 53) * Qabs (x - y))%Q /\ ((2 # 1) ^ (-1074) <= Qabs (x - y))%Q.
Proof.
  intros Hd (n & e2 & Hn & He2 & Hy) x Hx. destruct (double_hex s m e Hd) as (Hm & He & Hs). set (k := Z.min e e2).
  assert (X : (x == inject_Z (Zpos m * 2 ^ (e - k)) * (2 # 1) ^ k)%Q) by (subst x; cbn [dval]; apply two_shift; lia).
  assert (Y : (y == inject_Z (n * 2 ^ (e2 - k)) * (2 # 1) ^ k)%Q) by (rewrite Hy; apply two_shift; lia).
  set (M := Zpos m * 2 ^ (e - k)) in *. set (N := n * 2 ^ (e2 - k)) in *. pose proof (two_pow_pos k) as K.
  assert (D : (Qabs (x - y) == inject_Z (Z.abs (M - N)) * (2 # 1) ^ k)%Q).
  { rewrite X, Y. setoid_replace (inject_Z M * (2 # 1) ^ k - inject_Z N * (2 # 1) ^ k)%Q with (inject_Z (M - N) * (2 # 1) ^ k)%Q by (unfold Z.sub; rewrite inject_Z_plus, inject_Z_opp; ring).
    rewrite Qabs_Qmult, (Qabs_pos ((2 # 1) ^ k)) by (apply Qlt_le_weak, K). rewrite Qmult_inj_r; [reflexivity|]. intros Z0. rewrite Z0 in K. discriminate K. }
  assert (MN : M <> N) by (intros E; apply Hx; rewrite X, Y, E; reflexivity).
  assert (G : M - Z.abs (M - N) < 2 ^ 53 * Z.abs (M - N)).
  { destruct (Z.le_gt_cases e e2).
    - assert (M = Zpos m) by (subst M k; rewrite Z.min_l, Z.sub_diag by lia; lia). lia.
    - assert (N = n) by (subst N k; rewrite Z.min_r, Z.sub_diag by lia; lia). assert (2 ^ 52 <= Zpos m) by lia.
      assert (2 <= 2 ^ (e - k)) by (change 2 with (2 ^ 1) at 1; apply Z.pow_le_mono_r; lia). assert (2 ^ 53 <= M) by (subst M; change (2 ^ 53) with (2 ^ 52 * 2); nia). lia. }
  split.
  - rewrite D, X, Qmult_assoc, <- inject_Z_mult. setoid_replace (inject_Z M * (2 # 1) ^ k - inject_Z (Z.abs (M - N)) * (2 # 1) ^ k)%Q with (inject_Z (M - Z.abs (M - N)) * (2 # 1) ^ k)%Q by (unfold Z.sub; rewrite !inject_Z_plus, !inject_Z_opp; ring).
    apply Qmult_lt_compat_r; [exact K|]. rewrite <- Zlt_Qlt. exact G.
  - rewrite D. apply (Qle_trans _ (1 * (2 # 1) ^ k)).
    + rewrite Qmult_1_l. apply Qpower_le_compat_l; [lia|discriminate].
    + apply Qmult_le_compat_r; [|apply Qlt_le_weak, K]. change 1%Q with (inject_Z 1). rewrite <- Zle_Qle. lia.
Qed.
Lemma triangle x y q D : (D == Qabs (x - y))%Q -> (2 * Qabs (x - q) < D)%Q -> (Qabs (x - q) < Qabs (y - q))%Q.
Proof.
  intros E H. assert (T : (Qabs (x - y) <= Qabs (x - q) + Qabs (y - q))%Q).
  { setoid_replace (x - y)%Q with ((x - q) + (q - y))%Q by ring. rewrite (Qabs_Qminus y q). apply Qabs_triangle. } lra.
Qed.
Lemma near_half x n k : nearest_even (x * ten k) n -> (2 * Qabs (x - inject_Z n * ten (- k)) <= ten (- k))%Q.
Proof.
  intros [H _]. pose proof (ten_pos (- k)) as K. pose proof (ten_opp k) as O.
  assert (E : (x - inject_Z n * ten (- k) == (x * ten k - inject_Z n) * ten (- k))%Q).
  { transitivity (x * (ten k * ten (- k)) - inject_Z n * ten (- k))%Q; [rewrite O; ring|ring]. }
  rewrite E, Qabs_Qmult, (Qabs_pos (ten (- k))) by (apply Qlt_le_weak, K). set (a := Qabs _) in *. nra.
Qed.
Lemma near_digits s m e y P q : double (S754_finite s m e) -> bits53 y -> 17 <= P -> let x := dval (S754_finite false m e) in ~ (x == y)%Q -> sig_digits P x q ->
  (Qabs (x - q) < Qabs (y - q))%Q.
Proof.
  intros Hd Hy HP x Hx (k & n & [K _] & N & Q). destruct (gap s m e y Hd Hy Hx) as [G _]. fold x in G.
  apply (triangle x y q _ (Qeq_refl _)). apply near_half in N. replace (- (P - 1 - k)) with (k - (P - 1)) in N by lia. rewrite Q.
  assert (U : (ten (k - (P - 1)) <= ten k * ten (-16))%Q) by (rewrite <- ten_add; apply ten_le; lia).
  assert (T : (ten (-16) == 1 # 10000000000000000)%Q) by reflexivity. rewrite T in U.
  change (inject_Z (2 ^ 53)) with (9007199254740992 # 1)%Q in G. set (D := Qabs (x - y)) in *. clearbody D. pose proof (ten_pos k) as TK. set (a := Qabs _) in *. lra.
Qed.
Lemma near_fixed s m e y p n : double (S754_finite s m e) -> bits53 y -> 324 <= p -> let x := dval (S754_finite false m e) in ~ (x == y)%Q -> nearest_even (x * ten p) n ->
  (Qabs (x - inject_Z n * ten (- p)) < Qabs (y - inject_Z n * ten (- p)))%Q.
Proof.
  intros Hd Hy HP x Hx N. destruct (gap s m e y Hd Hy Hx) as [_ G]. fold x in G.
  apply (triangle x y _ _ (Qeq_refl _)). apply near_half in N. eapply Qle_lt_trans; [exact N|]. eapply Qlt_le_trans; [|exact G].
  eapply Qle_lt_trans; [apply (ten_le (- p) (-324)); lia|]. vm_compute. reflexivity.
Qed.

(** *** A text denotes at most one number *)
Definition stops (P : ascii -> bool) (t : list ascii) : Prop := match t with [] => True | c :: _ => P c = false end.
Lemma span_unique P a : forall b r s, Forall (fun c => P c = true) a -> Forall (fun c => P c = true) b -> stops P r -> stops P s -> a ++ r = b ++ s -> a = b /\ r = s.
Proof.
  induction a as [|c a IH]; intros [|d b] r s Ha Hb Hr Hs E; cbn [app] in E.
  - auto.
  - subst r. inversion Hb; subst. cbn in Hr. congruence.
  - subst s. inversion Ha; subst. cbn in Hs. congruence.
  - injection E as -> E. inversion Ha; inversion Hb; subst. destruct (IH b r s) as [-> ->]; auto.
Qed.
Lemma exponent_stops P l u e x : exponent_part l u e x -> P l = false -> P u = false -> stops P e.
Proof. intros [|c e' y [->| ->] H|c e' y [->| ->] H|c e' y [->| ->] H] Hl Hu; cbn; auto. Qed.
Lemma numeral_fun t n m : numeral t n -> numeral t m -> n = m.
Proof. intros H K. apply numeral_iff in H as (_ & _ & ->), K as (_ & _ & ->). reflexivity. Qed.
Lemma numeral_head c t n : numeral (c :: t) n -> isdigit c = true.
Proof. intros H. apply numeral_iff in H as (_ & D & _). inversion D; auto. Qed.
Lemma exponent_fun l u e x y : exponent_part l u e x -> exponent_part l u e y -> x = y.
Proof.
  intros H K. destruct H as [|c e x _ H|c e x _ H|c e x _ H]; inversion K as [|c' e' y' _ K'|c' e' y' _ K'|c' e' y' _ K']; subst; auto;
    repeat match goal with H : numeral ("+"%char :: _) _ |- _ => apply numeral_head in H; discriminate H | H : numeral ("-"%char :: _) _ |- _ => apply numeral_head in H; discriminate H end;
    try (f_equal); eapply numeral_fun; eauto.
Qed.
Lemma body_unique P l u i f pt p e x i' f' pt' p' e' x' : P "."%char = false -> P l = false -> P u = false -> l <> "."%char -> u <> "."%char ->
  Forall (fun c => P c = true) (i ++ f) -> Forall (fun c => P c = true) (i' ++ f') -> point pt f p -> point pt' f' p' -> exponent_part l u e x -> exponent_part l u e' x' ->
  i ++ p ++ e = i' ++ p' ++ e' -> i = i' /\ f = f' /\ x = x'.
Proof.
  intros Hd Hl Hu Nl Nu F F' Hp Hp' He He' E. apply Forall_app in F as [Fi Ff], F' as [Fi' Ff'].
  pose proof (exponent_stops P _ _ _ _ He Hl Hu) as Se. pose proof (exponent_stops P _ _ _ _ He' Hl Hu) as Se'.
  assert (Sp : stops P (p ++ e)) by (destruct pt; cbn in Hp; [subst p; exact Hd|destruct Hp as [-> _]; exact Se]).
  assert (Sp' : stops P (p' ++ e')) by (destruct pt'; cbn in Hp'; [subst p'; exact Hd|destruct Hp' as [-> _]; exact Se']).
  destruct (span_unique P _ _ _ _ Fi Fi' Sp Sp' E) as [-> E2]. split; [auto|].
  assert (N : forall e x r, exponent_part l u e x -> e <> "."%char :: r).
  { clear -Nl Nu. intros e x r H. destruct H as [|c e y [->| ->] H|c e y [->| ->] H|c e y [->| ->] H]; congruence. }
  destruct pt, pt'; cbn in Hp, Hp'.
  - subst p p'. cbn [app] in E2. injection E2 as E2. destruct (span_unique P _ _ _ _ Ff Ff' Se Se' E2) as [-> ->]. split; [auto|]. eapply exponent_fun; eauto.
  - subst p. destruct Hp' as [-> ->]. cbn [app] in E2. symmetry in E2. apply (N _ _ _ He') in E2. contradiction.
  - subst p'. destruct Hp as [-> ->]. cbn [app] in E2. apply (N _ _ _ He) in E2. contradiction.
  - destruct Hp as [-> ->], Hp' as [-> ->]. cbn [app] in E2. subst e'. split; [auto|]. eapply exponent_fun; eauto.
Qed.
Definition hex_val (c : ascii) : Z := let n := Z.of_nat (nat_of_ascii c) in if n <? 58 then n - 48 else if n <? 71 then n - 55 else n - 87.
Definition is_hex (c : ascii) : bool := existsb (Ascii.eqb c) (list_ascii_of_string "0123456789ABCDEFabcdef").
Lemma base_digit_val up c d : base_digit 16 up c d -> d = hex_val c /\ is_hex c = true.
Proof.
  intros [D E].
  assert (G : forallb (fun d => match nth_error (list_ascii_of_string (if up then "0123456789ABCDEF" else "0123456789abcdef")) (Z.to_nat d) with Some c => (d =? hex_val c) && is_hex c | None => false end) (map Z.of_nat (seq 0 16)) = true) by (destruct up; vm_compute; reflexivity).
  rewrite forallb_forall in G. specialize (G d). rewrite E in G. assert (I : In d (map Z.of_nat (seq 0 16))) by (apply in_map_iff; exists (Z.to_nat d); split; [lia|apply in_seq; lia]).
  apply G in I. apply andb_prop in I as [A B]. apply Z.eqb_eq in A. auto.
Qed.
Lemma hex_number_digits t n : hex_number t n -> Forall (fun c => is_hex c = true) t.
Proof. induction 1 as [|t n up c d H IH D]; [constructor|]. apply Forall_app. split; [exact IH|]. constructor; [|constructor]. apply (base_digit_val _ _ _ D). Qed.
Lemma hex_number_fun t n : hex_number t n -> forall m, hex_number t m -> n = m.
Proof.
  induction 1 as [|t n up c d H IH D]; intros m K.
  - inversion K as [|t' n' up' c' d' K' D' E]; [reflexivity|]. destruct t'; discriminate.
  - inversion K as [E|t' n' up' c' d' K' D' E]; [destruct t; discriminate|]. apply app_inj_tail in E as [-> ->]. rewrite (IH _ K'). apply base_digit_val in D as [-> _], D' as [-> _]. reflexivity.
Qed.
Lemma decimal_digits t n : numeral t n -> Forall (fun c => isdigit c = true) t.
Proof. intros H. apply numeral_iff in H as (_ & D & _). exact D. Qed.
Lemma decimal_no_x c i f pt p e n x r : numeral (i ++ f) n -> point pt f p -> exponent_part "e" "E" e x -> c = "x"%char \/ c = "X"%char -> i ++ p ++ e <> "0"%char :: c :: r.
Proof.
  intros Hn Hp He Hc E. apply decimal_digits in Hn. destruct i as [|a i].
  - destruct pt; cbn in Hp; [subst p; discriminate E|destruct Hp as [-> ->]]. cbn [app] in *. subst e. inversion He as [|? ? ? [X|X]|? ? ? [X|X]|? ? ? [X|X]]; discriminate X.
  - injection E as -> E. inversion Hn as [|? ? _ Hn']; subst. destruct i as [|b i].
    + destruct pt; cbn in Hp; [subst p; injection E as E1 _; destruct Hc; congruence|destruct Hp as [-> ->]]. cbn [app] in *. subst e.
      inversion He as [|? ? ? [X|X]|? ? ? [X|X]|? ? ? [X|X]]; subst; destruct Hc; congruence.
    + injection E as -> _. inversion Hn' as [|? ? B _]; subst. destruct Hc as [->| ->]; discriminate B.
Qed.
Lemma denotes_fun t q r : denotes t q -> denotes t r -> (q == r)%Q.
Proof.
  intros H K. destruct H as [i f pt p e n x q Hn Hp He Q|c i f pt p e n x q Hc Hne Hn Hp He Q]; inversion K as [i' f' pt' p' e' n' x' r' Hn' Hp' He' R E|c' i' f' pt' p' e' n' x' r' Hc' Hne' Hn' Hp' He' R E].
  - subst r'. destruct (body_unique isdigit "e" "E" i' f' pt' p' e' x' i f pt p e x) as (-> & -> & ->); auto; try discriminate; try (eapply decimal_digits; eauto).
    rewrite Q, R. rewrite (numeral_fun _ _ _ Hn Hn'). reflexivity.
  - exfalso. symmetry in E. revert E. eapply decimal_no_x; eauto.
  - exfalso. revert E. eapply decimal_no_x; eauto.
  - subst r' c'. destruct (body_unique is_hex "p" "P" i' f' pt' p' e' x' i f pt p e x) as (-> & -> & ->); auto; try discriminate; try (eapply hex_number_digits; eauto).
    rewrite Q, R. rewrite (hex_number_fun _ _ Hn _ Hn'). reflexivity.
Qed.
Lemma denotes_head t q : denotes t q -> exists c r, t = c :: r /\ (isdigit c = true \/ c = "."%char).
Proof.
  intros [i f pt p e n x q' Hn Hp He Q|c i f pt p e n x q' Hc Hne Hn Hp He Q].
  - destruct i as [|a i].
    + destruct pt; cbn in Hp; [subst p; cbn [app]; eauto|destruct Hp as [-> ->]]. apply numeral_iff in Hn as (N & _). contradiction.
    + apply numeral_head in Hn. cbn [app]. eauto.
  - exists "0"%char. eexists. split; [reflexivity|auto].
Qed.
Lemma reads_fun t q r : reads t q -> reads t r -> (q == r)%Q.
Proof.
  assert (N : forall c t q, denotes (c :: t) q -> c <> "+"%char /\ c <> "-"%char).
  { clear. intros c t q H. apply denotes_head in H as (a & r & E & [H|H]); injection E as <- _; split; intros ->; discriminate H. }
  intros H K. destruct H as [t q H|t q H|t q r' H R]; inversion K as [t' q' K'|t' q' K'|t' q' r'' K' R']; subst;
   try (eapply denotes_fun; eassumption); try (exfalso; match goal with H : denotes (_ :: _) _ |- _ => destruct (N _ _ _ H); congruence end).
  rewrite R, R'. rewrite (denotes_fun _ _ _ H K'). reflexivity.
Qed.

(** *** What is written denotes the rounded number *)
Lemma shortened_zeros keep f g : shortened keep f g -> exists j, f = g ++ repeat "0"%char j.
Proof. unfold shortened. destruct keep; [intros ->; exists 0%nat; rewrite app_nil_r; reflexivity|intros (j & -> & _); eauto]. Qed.
Lemma point_digits_point pt g : exists b, point b g (point_digits pt g).
Proof. destruct g as [|c g]; cbn [point_digits]; [destruct pt; [exists true|exists false]; cbn; auto|exists true; reflexivity]. Qed.
Lemma zeros_value i g j x : (inject_Z (nv 0 (i ++ g ++ repeat "0"%char j)) * ten (x - Z.of_nat (length (g ++ repeat "0"%char j))) == inject_Z (nv 0 (i ++ g)) * ten (x - Z.of_nat (length g)))%Q.
Proof.
  rewrite app_assoc, nv_app0, (nv_zeros (repeat "0"%char j)) by (apply Forall_forall; intros c Hc; apply repeat_spec in Hc; exact Hc). rewrite Z.add_0_r, inject_Z_mult, p10_ten, repeat_length, app_length, repeat_length.
  rewrite <- Qmult_assoc, <- ten_add. rewrite Nat2Z.inj_add. replace (Z.of_nat j + (x - (Z.of_nat (length g) + Z.of_nat j))) with (x - Z.of_nat (length g)) by lia. reflexivity.
Qed.
Lemma digits_denote i f g n pt keep e x q : i <> [] -> numeral (i ++ f) n -> shortened keep f g -> exponent_part "e" "E" e x ->
  (q == inject_Z n * ten (x - Z.of_nat (length f)))%Q -> denotes (i ++ point_digits pt g ++ e) q.
Proof.
  intros Hi Hn Hs He Q. destruct (shortened_zeros _ _ _ Hs) as (j & ->). destruct (point_digits_point pt g) as (b & Hb). apply numeral_iff in Hn as (_ & D & ->).
  apply (decimal i g b _ e (nv 0 (i ++ g)) x); auto.
  - apply numeral_iff. splits; auto; [destruct i; [contradiction|discriminate]|]. rewrite app_assoc in D. apply Forall_app in D as [D _]. exact D.
  - rewrite Q. apply zeros_value.
Qed.
Lemma fixed_denotes pt keep k t q : fixed_notation pt keep k t q -> denotes t q.
Proof.
  intros [i a f g n q' Ci Ha Hn Hk Sf Q]. rewrite <- (app_nil_r (point_digits pt g)). eapply digits_denote; eauto using no_exponent; [inversion Ci; discriminate|]. rewrite Q, Hk. reflexivity.
Qed.
Lemma letter_or (up : bool) (l u : ascii) : (if up then u else l) = l \/ (if up then u else l) = u.
Proof. destruct up; auto. Qed.
Lemma exponent_ok (up : bool) l u e x : numeral e (Z.abs x) -> exponent_part l u ((if up then u else l) :: (if x <? 0 then "-"%char else "+"%char) :: e) x.
Proof.
  intros H. destruct (Z.ltb_spec x 0).
  - replace x with (- Z.abs x) by lia. apply minus_exponent; [apply letter_or|exact H].
  - rewrite Z.abs_eq in H by lia. apply plus_exponent; [apply letter_or|exact H].
Qed.
Lemma exponent_denotes up pt keep k t q x : exponent_notation up pt keep k t q x -> denotes t q.
Proof.
  intros [c f g n e y q' Hn Hc Hk Sf [He _] Q]. change (c :: ?t) with ([c] ++ t). eapply digits_denote; [discriminate|exact Hn|exact Sf|apply exponent_ok, He|]. rewrite Q, Hk. reflexivity.
Qed.
Lemma hex_numeral_number up t n : hex_numeral up t n -> hex_number t n.
Proof. induction 1; econstructor; eauto. Qed.
Lemma canonical_numeral e x : canonical_text e x -> 0 <= x -> numeral e x.
Proof.
  intros [|c ds n Hn Hc|c ds n Hn Hc] Hx; auto.
  - apply numeral_one. reflexivity.
  - exfalso. apply numeral_iff in Hn as (_ & D & ->). pose proof (nv_lead _ _ D Hc). pose proof (p10_pos (length ds)). lia.
Qed.
Lemma hex_denotes up pt t q : hex_notation up pt t q -> denotes t q.
Proof.
  intros [c f n x e q' Hn Hc _ He Q]. destruct (point_digits_point pt f) as (b & Hb). change (c :: point_digits pt f ++ ?t) with ([c] ++ point_digits pt f ++ t).
  eapply (hexadecimal _ [c] f b); [destruct up; auto|discriminate|eapply hex_numeral_number; exact Hn|exact Hb|apply exponent_ok, canonical_numeral; [exact He|lia]|exact Q].
Qed.
Lemma numeral_repeat k : numeral (repeat "0"%char (S k)) 0.
Proof.
  apply numeral_iff. splits; [discriminate| |symmetry; apply nv_zeros]; apply Forall_forall; intros c Hc; apply repeat_spec in Hc; subst; reflexivity.
Qed.
Lemma zero_denotes ff up : denotes (zero_with ff up) 0.
Proof.
  unfold zero_with. set (p := if precision ff <? 0 then 6 else precision ff).
  assert (Z0 : forall pt e x j, exponent_part "e" "E" e x -> denotes ("0"%char :: point_digits pt (repeat "0"%char j) ++ e) 0).
  { intros pt e x j He. apply (digits_denote ["0"%char] (repeat "0"%char j) _ 0 pt true e x); [discriminate|apply (numeral_repeat j)|reflexivity|exact He|]. ring. }
  destruct (field ff).
  - destruct (showpoint ff); [|apply (Z0 false [] 0 0%nat); constructor]. specialize (Z0 true [] 0 (Z.to_nat (Z.max 1 p - 1)) (no_exponent _ _)). rewrite app_nil_r in Z0.
    destruct (repeat "0"%char (Z.to_nat (Z.max 1 p - 1))); exact Z0.
  - rewrite <- (app_nil_r (point_digits _ _)). apply (Z0 _ [] 0). constructor.
  - destruct up; apply (Z0 _ _ 0); apply plus_exponent; auto; apply (numeral_repeat 1).
  - assert (D : base_digit 16 true "0"%char 0) by (split; [lia|reflexivity]). assert (H0 : hex_number (["0"%char] ++ []) 0) by (apply (hex_more [] 0 true "0"%char 0 hex_none D)).
    assert (N0 : numeral ["0"%char] 0) by (apply (numeral_repeat 0)).
    destruct up, (showpoint ff); cbn [app list_ascii_of_string].
    + apply (hexadecimal _ ["0"%char] [] true ["."%char] _ 0 0); auto; [discriminate|reflexivity|apply plus_exponent; auto|ring].
    + apply (hexadecimal _ ["0"%char] [] false [] _ 0 0); auto; [discriminate|split; reflexivity|apply plus_exponent; auto|ring].
    + apply (hexadecimal _ ["0"%char] [] true ["."%char] _ 0 0); auto; [discriminate|reflexivity|apply plus_exponent; auto|ring].
    + apply (hexadecimal _ ["0"%char] [] false [] _ 0 0); auto; [discriminate|split; reflexivity|apply plus_exponent; auto|ring].
Qed.
Lemma denotes_eq t q r : denotes t q -> (q == r)%Q -> denotes t r.
Proof. intros [i f pt p e n x q' Hn Hp He Q|c i f pt p e n x q' Hc Hne Hn Hp He Q] E; rewrite E in Q; econstructor; eauto. Qed.
(** the number written is the closest to d, and no other number of 53 bits is as close *)
Lemma positive_near ff up s m e t : double (S754_finite s m e) -> enough ff -> let x := dval (S754_finite false m e) in positive_with ff up x t ->
  exists q, denotes t q /\ forall y, bits53 y -> ~ (x == y)%Q -> (Qabs (x - q) < Qabs (y - q))%Q.
Proof.
  intros Hd En x H. unfold positive_with in H. unfold enough in En. destruct (field ff).
  - replace (precision ff <? 0) with false in H by lia. rewrite Z.max_r in H by lia. destruct H as (q & e' & Sg & _ & H). exists q. split.
    + destruct ((-4 <=? e') && (e' <? precision ff)); [eapply fixed_denotes; exact H|eapply exponent_denotes; exact H].
    + intros y Hy Ny. eapply near_digits; eauto.
  - replace (precision ff <? 0) with false in H by lia. destruct H as (n & N & H). eexists. split; [eapply fixed_denotes; exact H|]. intros y Hy Ny. eapply near_fixed; eauto.
  - replace (precision ff <? 0) with false in H by lia. destruct H as (q & e' & Sg & H). exists q. split; [eapply exponent_denotes; exact H|]. intros y Hy Ny. eapply (near_digits s m e y (precision ff + 1)); eauto. lia.
  - exists x. split; [eapply hex_denotes; exact H|]. intros y Hy Ny. setoid_replace (x - x)%Q with 0%Q by ring. cbn [Qabs].
    assert (0 <= Qabs (y - x))%Q by apply Qabs_nonneg. apply Qle_lteq in H0 as [H0|H0]; [exact H0|]. exfalso. apply Ny. symmetry in H0.
    assert (y - x == 0)%Q by (revert H0; apply Qabs_case; intros; lra). lra.
Qed.
Lemma positive_denotes ff up m e t : positive_with ff up (dval (S754_finite false m e)) t -> exists q, denotes t q.
Proof.
  unfold positive_with. destruct (field ff).
  - intros (q & x & _ & _ & H). exists q. destruct (_ && _) in H; [eapply fixed_denotes; exact H|eapply exponent_denotes; exact H].
  - intros (n & _ & H). eexists. eapply fixed_denotes, H.
  - intros (q & x & _ & H). eexists. eapply exponent_denotes, H.
  - intros H. eexists. eapply hex_denotes, H.
Qed.
Lemma unsigned_denotes ff up d u : finite d -> unsigned_with ff up d u -> exists q, denotes u q.
Proof. destruct d as [s|s| |s m e]; cbn; try contradiction; intros _ H; [subst u; eexists; apply zero_denotes|eapply positive_denotes; exact H]. Qed.
Lemma reads_signed fl d u q : denotes u q -> reads (float_sign fl d ++ u) (if negative_float d then - q else q)%Q.
Proof. intros H. unfold float_sign. destruct (negative_float d); [|destruct (showpos fl)]; cbn [app]; [eapply reads_minus; [exact H|reflexivity]|apply reads_plus, H|apply reads_bare, H]. Qed.
Lemma text_reads fl ff d t : finite d -> float_with fl ff d t -> exists q, reads t q.
Proof. intros F (u & -> & U). apply unsigned_denotes in U as (q & U); [|exact F]. eexists. apply reads_signed, U. Qed.
Lemma bits53_opp y : bits53 y -> bits53 (- y)%Q.
Proof. intros (m & e & M & E & Y). exists (- m), e. splits; [lia|lia|]. rewrite Y, inject_Z_opp. ring. Qed.
Lemma double_bits53 d : double d -> finite d -> bits53 (dval d).
Proof.
  intros D F. destruct d as [s|s| |s m e]; cbn in F; try contradiction.
  - exists 0, 0. splits; try lia. reflexivity.
  - destruct (double_hex s m e D) as (M & E & _). exists (if s then Zneg m else Zpos m), e. splits; [destruct s; lia|lia|]. reflexivity.
Qed.
Lemma text_closest fl ff d t : double d -> finite d -> enough ff -> float_with fl ff d t ->
  exists q, reads t q /\ forall y, bits53 y -> ~ (dval d == y)%Q -> (Qabs (dval d - q) < Qabs (y - q))%Q.
Proof.
  intros D F En (u & -> & U). destruct d as [s|s| |s m e]; cbn in F; try contradiction; cbn [unsigned_with] in U.
  - subst u. eexists. split; [apply reads_signed, zero_denotes|]. intros y _ N. cbn [negative_float]. cbn [dval] in *.
    assert (E : ((if s then - 0 else 0) == 0)%Q) by (destruct s; reflexivity). rewrite E. setoid_replace (0 - 0)%Q with 0%Q by reflexivity. cbn [Qabs]. setoid_replace (y - 0)%Q with y by ring.
    destruct (Qlt_le_dec 0 (Qabs y)) as [L|L]; [exact L|]. exfalso. apply N. revert L. apply Qabs_case; intros; lra.
  - destruct (positive_near _ _ s _ _ _ D En U) as (q & Dq & C). eexists. split; [apply reads_signed, Dq|]. intros y Hy N. cbn [negative_float].
    destruct s; [|apply C; auto].
    assert (X : (dval (S754_finite true m e) == - dval (S754_finite false m e))%Q) by (cbn [dval]; change (Zneg m) with (- Zpos m); rewrite inject_Z_opp; ring).
    specialize (C (- y)%Q (bits53_opp y Hy)). rewrite X in N |- *. set (x := dval (S754_finite false m e)) in *.
    setoid_replace (- x - - q)%Q with (- (x - q))%Q by ring. setoid_replace (y - - q)%Q with (- (- y - q))%Q by ring. rewrite !Qabs_opp. apply C. intros E. apply N. rewrite E. ring.
Qed.
(** *** The text determines the double *)
Lemma dval_inj d d' : double d -> double d' -> finite d -> finite d' -> (dval d == dval d')%Q -> negative_float d = negative_float d' -> d = d'.
Proof.
  intros D D' F F' E S. destruct d as [s|s| |s m e], d' as [s'|s'| |s' m' e']; cbn in F, F'; try contradiction; cbn [negative_float] in S; subst s'.
  - reflexivity.
  - exfalso. cbn [dval] in E. pose proof (two_pow_pos e') as P. destruct s; unfold Qeq in *; unfold Qlt in *; destruct ((2 # 1) ^ e')%Q; cbn in *; lia.
  - exfalso. cbn [dval] in E. pose proof (two_pow_pos e) as P. destruct s; unfold Qeq in *; unfold Qlt in *; destruct ((2 # 1) ^ e)%Q; cbn in *; lia.
  - destruct (double_hex _ _ _ D) as (M & Ee & N). destruct (double_hex _ _ _ D') as (M' & Ee' & N').
    assert (X : (inject_Z (Zpos m) * (2 # 1) ^ e == inject_Z (Zpos m') * (2 # 1) ^ e')%Q).
    { destruct s; cbn [dval] in E; [|exact E]. change (Zneg m) with (- Zpos m) in E. change (Zneg m') with (- Zpos m') in E. rewrite !inject_Z_opp in E. lra. }
    assert (W : forall a b c d, (inject_Z (Zpos a) * (2 # 1) ^ b == inject_Z (Zpos c) * (2 # 1) ^ d)%Q -> b <= d -> Zpos a = Zpos c * 2 ^ (d - b)).
    { clear. intros a b c d H L. rewrite (two_shift (Zpos c) d b L) in H. apply Qmult_inj_r in H; [|pose proof (two_pow_pos b) as P; intros Z0; rewrite Z0 in P; discriminate P]. apply inject_Z_injective. exact H. }
    destruct (Z.lt_trichotomy e e') as [L|[->|L]].
    + pose proof (W _ _ _ _ X ltac:(lia)). assert (2 <= 2 ^ (e' - e)) by (change 2 with (2 ^ 1) at 1; apply Z.pow_le_mono_r; lia). exfalso. assert (2 ^ 52 <= Zpos m') by lia. change (2 ^ 53) with (2 ^ 52 * 2) in *. nia.
    + pose proof (W _ _ _ _ X ltac:(lia)) as Y. rewrite Z.sub_diag, Z.mul_1_r in Y. injection Y as ->. reflexivity.
    + symmetry in X. pose proof (W _ _ _ _ X ltac:(lia)). assert (2 <= 2 ^ (e - e')) by (change 2 with (2 ^ 1) at 1; apply Z.pow_le_mono_r; lia). exfalso. assert (2 ^ 52 <= Zpos m) by lia. change (2 ^ 53) with (2 ^ 52 * 2) in *. nia.
Qed.
Lemma denotes_first t q : denotes t q -> exists c r, t = c :: r /\ c <> "+"%char /\ c <> "-"%char /\ c <> "i"%char /\ c <> "I"%char /\ c <> "n"%char /\ c <> "N"%char.
Proof. intros H. apply denotes_head in H as (c & r & -> & H). exists c, r. split; [auto|]. destruct H as [H|H]; splits; intros ->; discriminate H. Qed.
Lemma unsigned_first ff up d u : unsigned_with ff up d u -> exists c r, u = c :: r /\ c <> "+"%char /\ c <> "-"%char.
Proof.
  intros H. destruct d as [s|s| |s m e]; cbn in H.
  - destruct (denotes_first _ _ (zero_denotes ff up)) as (c' & r & E & A & B & _); subst u; rewrite E; eauto.
  - subst u. destruct up; cbn; eexists; eexists; (split; [reflexivity|]); split; discriminate.
  - subst u. destruct up; cbn; eexists; eexists; (split; [reflexivity|]); split; discriminate.
  - apply positive_denotes in H as (q & H). destruct (denotes_first _ _ H) as (c' & r & E & A & B & _); subst u; eauto.
Qed.
Lemma sign_split fl ff up d d' u u' : unsigned_with ff up d u -> unsigned_with ff up d' u' -> float_sign fl d ++ u = float_sign fl d' ++ u' -> negative_float d = negative_float d' /\ u = u'.
Proof.
  intros U U' E. destruct (unsigned_first _ _ _ _ U) as (c & r & -> & A & B). destruct (unsigned_first _ _ _ _ U') as (c' & r' & -> & A' & B').
  unfold float_sign in E. destruct (negative_float d), (negative_float d'), (showpos fl); cbn [app] in E; injection E; intros; subst; auto; try congruence; discriminate.
Qed.
Lemma text_inj fl ff d d' t : double d -> double d' -> enough ff -> float_with fl ff d t -> float_with fl ff d' t -> d = d'.
Proof.
  intros D D' En T T'. assert (FD : forall d, finite d \/ d = S754_nan \/ exists s, d = S754_infinity s) by (clear; intros [s|s| |s m e]; cbn; eauto).
  assert (Mix : forall d d', finite d -> ~ finite d' -> float_with fl ff d t -> float_with fl ff d' t -> False).
  { clear. intros d d' F N (u & E & U) (u' & E' & U'). rewrite E in E'. apply (sign_split _ ff (uppercase fl)) in E' as [_ <-]; auto.
    apply unsigned_denotes in U as (q & U); [|exact F]. destruct (denotes_first _ _ U) as (c & r & -> & _ & _ & C1 & C2 & C3 & C4).
    destruct d' as [s|s| |s m e]; cbn in N; try (apply N; exact I); cbn in U'; destruct (uppercase fl); injection U'; congruence. }
  destruct (FD d) as [F|F], (FD d') as [F'|F'].
  - assert (E : (dval d == dval d')%Q).
    { destruct (text_closest fl ff d t D F En T) as (q & R & C). destruct (text_closest fl ff d' t D' F' En T') as (q' & R' & C'). pose proof (reads_fun _ _ _ R R') as Q.
      destruct (Qeq_dec (dval d) (dval d')) as [X|X]; [exact X|exfalso]. specialize (C _ (double_bits53 _ D' F') X). specialize (C' _ (double_bits53 _ D F)).
      assert (Y : ~ (dval d' == dval d)%Q) by (intros Y; apply X; symmetry; exact Y). specialize (C' Y). rewrite Q in C. eapply Qlt_not_le; [exact C|]. apply Qlt_le_weak, C'. }
    destruct T as (u & E1 & U), T' as (u' & E1' & U'). rewrite E1 in E1'. apply (sign_split _ ff (uppercase fl)) in E1' as [S _]; auto. apply dval_inj; auto.
  - exfalso. eapply (Mix d d'); eauto. destruct F' as [->|(s & ->)]; cbn; auto.
  - exfalso. eapply (Mix d' d); eauto. destruct F as [->|(s & ->)]; cbn; auto.
  - destruct T as (u & E1 & U), T' as (u' & E1' & U'). rewrite E1 in E1'. apply (sign_split _ ff (uppercase fl)) in E1' as [S X]; auto. subst u'.
    destruct F as [->|(s & ->)], F' as [->|(s' & ->)]; cbn in *; subst; auto; destruct (uppercase fl); discriminate.
Qed.

(** *** Vectors and matrices *)
Definition tame (c : ascii) : bool := negb (existsb (Ascii.eqb c) [","%char; " "%char; ascii_of_nat 10]).
Lemma tame_digit c : isdigit c = true -> tame c = true.
Proof. intros H. unfold tame. apply negb_true_iff. cbn [existsb]. repeat match goal with |- context [Ascii.eqb c ?x] => destruct (Ascii.eqb_spec c x) as [->|_]; [discriminate H|] end. reflexivity. Qed.
Lemma tame_hex c : is_hex c = true -> tame c = true.
Proof. intros H. unfold tame. apply negb_true_iff. cbn [existsb]. repeat match goal with |- context [Ascii.eqb c ?x] => destruct (Ascii.eqb_spec c x) as [->|_]; [discriminate H|] end. reflexivity. Qed.
Lemma tame_exponent l u e x : exponent_part l u e x -> tame l = true -> tame u = true -> Forall (fun c => tame c = true) e.
Proof.
  assert (N : forall e x, numeral e x -> Forall (fun c => tame c = true) e) by (intros a b H; apply decimal_digits in H; eapply Forall_impl; [|exact H]; apply tame_digit).
  intros [|c e' y [->| ->] H|c e' y [->| ->] H|c e' y [->| ->] H] Hl Hu; repeat constructor; auto; eapply N; eauto.
Qed.
Lemma tame_point pt f p : point pt f p -> Forall (fun c => tame c = true) f -> Forall (fun c => tame c = true) p.
Proof. destruct pt; cbn; [intros ->; constructor; auto|intros [-> _]; constructor]. Qed.
Lemma tame_denotes t q : denotes t q -> Forall (fun c => tame c = true) t.
Proof.
  intros [i f pt p e n x q' Hn Hp He _|c i f pt p e n x q' Hc _ Hn Hp He _].
  - apply decimal_digits in Hn. apply (Forall_impl _ tame_digit) in Hn. apply Forall_app in Hn as [Hi Hf]. apply Forall_app. split; [exact Hi|]. apply Forall_app. split; [eapply tame_point; eauto|eapply tame_exponent; eauto].
  - apply hex_number_digits in Hn. apply (Forall_impl _ tame_hex) in Hn. apply Forall_app in Hn as [Hi Hf]. constructor; [reflexivity|]. constructor; [destruct Hc as [->| ->]; reflexivity|].
    apply Forall_app. split; [exact Hi|]. apply Forall_app. split; [eapply tame_point; eauto|eapply tame_exponent; eauto].
Qed.
Lemma tame_text fl ff d t : float_with fl ff d t -> t <> [] /\ ~ In ","%char t /\ ~ In " "%char t /\ ~ In (ascii_of_nat 10) t.
Proof.
  intros (u & -> & U). assert (T : Forall (fun c => tame c = true) u).
  { destruct d as [s|s| |s m e]; cbn in U; [subst u; apply (tame_denotes _ _ (zero_denotes ff _))|subst u; destruct (uppercase fl); repeat constructor|subst u; destruct (uppercase fl); repeat constructor|]. apply positive_denotes in U as (q & U). apply (tame_denotes _ _ U). }
  destruct (unsigned_first _ _ _ _ U) as (c & r & -> & _). assert (T' : Forall (fun c => tame c = true) (float_sign fl d ++ c :: r)) by (apply Forall_app; split; [unfold float_sign; destruct (negative_float d), (showpos fl); repeat constructor|exact T]).
  rewrite Forall_forall in T'. splits; [destruct (float_sign fl d); discriminate| | |]; intros I; apply T' in I; discriminate I.
Qed.
Lemma float_text_inj fl ff d d' : double d -> double d' -> enough ff -> float_text fl ff d = float_text fl ff d' -> d = d'.
Proof. intros D D' En E. eapply text_inj; eauto; [apply float_text_ok, D|rewrite E; apply float_text_ok, D']. Qed.
Lemma vec_text_inj fl ff o x y : Forall double x -> Forall double y -> enough ff -> vec_insert fl ff o x = vec_insert fl ff o y -> x = y.
Proof.
  intros Hx Hy En E. rewrite !vec_insert_ok in E. injection E as E. apply app_inv_head in E. apply app_inv_tail in E. apply separated_inj in E.
  - revert y Hy E. induction Hx as [|d x D Hx IH]; intros y Hy E; destruct Hy as [|d' y D' Hy]; try discriminate; auto. injection E as E1 E2. f_equal; [eapply float_text_inj; eauto|apply IH; auto].
  - apply Forall_forall. intros s Hs. apply in_map_iff in Hs as (e & <- & He). rewrite Forall_forall in Hx. destruct (tame_text _ _ _ _ (float_text_ok fl ff e (Hx e He))) as (A & B & _). split; auto.
  - apply Forall_forall. intros s Hs. apply in_map_iff in Hs as (e & <- & He). rewrite Forall_forall in Hy. destruct (tame_text _ _ _ _ (float_text_ok fl ff e (Hy e He))) as (A & B & _). split; auto.
Qed.
Lemma insert_no_width fl ff o d : owidth o <= 0 -> float_insert fl ff o d = mkOut (obuf o ++ float_text fl ff d) 0 (ofill o).
Proof. intros H. unfold float_insert. replace (Z.to_nat (owidth o)) with 0%nat by lia. cbn [Nat.sub repeat]. destruct (adjust fl); cbn [app]; rewrite ?app_nil_r, ?firstn_skipn; reflexivity. Qed.
Lemma mat_insert_plain fl ff r c g o : owidth o <= 0 -> obuf (mat_insert fl ff r c g o) = obuf o ++ mat_text r c (fun i j => float_text fl ff (g i j)).
Proof.
  intros H. rewrite (mat_insert_ok fl ff r c g o _ (insert_no_width fl ff o (g 0 0)%nat H)). f_equal. unfold mat_text. f_equal. apply map_ext. intros i. unfold row_text. rewrite !flat_map_concat_map. f_equal. apply map_ext. intros j.
  destruct i; [|reflexivity]. destruct j; reflexivity.
Qed.
Lemma mat_texts_inj fl ff o r c g r' c' g' : owidth o <= 0 -> (0 < c)%nat -> (0 < c')%nat -> enough ff ->
  (forall i j, (i < r)%nat -> (j < c)%nat -> double (g i j)) -> (forall i j, (i < r')%nat -> (j < c')%nat -> double (g' i j)) ->
  obuf (mat_insert fl ff r c g o) = obuf (mat_insert fl ff r' c' g' o) ->
  r = r' /\ ((0 < r)%nat -> c = c') /\ forall i j, (i < r)%nat -> (j < c)%nat -> g i j = g' i j.
Proof.
  intros Ho Hc Hc' En D D' E. rewrite !mat_insert_plain in E by exact Ho. apply app_inv_head in E. apply mat_text_inj in E; auto.
  - destruct E as (<- & Ec & E). split; [auto|]. split; [exact Ec|]. intros i j Hi Hj. assert (c = c') as <- by (apply Ec; lia). eapply float_text_inj; eauto.
  - intros i j Hi Hj. destruct (tame_text _ _ _ _ (float_text_ok fl ff _ (D i j Hi Hj))) as (_ & _ & A & B). auto.
  - intros i j Hi Hj. destruct (tame_text _ _ _ _ (float_text_ok fl ff _ (D' i j Hi Hj))) as (_ & _ & A & B). auto.
Qed.
