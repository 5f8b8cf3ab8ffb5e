(** C127: sizes, positions and numbers of digits in variables of type int.
    w is the number of bits of int, 32 in the code. *)
From Coq Require Import Ascii String ZifyBool Znumtheory.
From Verif Require Import Base IntModel IntSpec IntBasics IntAddSub IntMul IntDiv IOModel IOSpec IOProofs FracModel NarrowModel NarrowSpec NarrowProofs NarrowRead NarrowMore.
Import ListNotations.
Local Open Scope list_scope.
Local Open Scope Z_scope.

Lemma C127_narrow_is_to_int32 z : narrow 32 z = to_int32 z.
Proof. reflexivity. Qed.

(** *** Below 2^(w-1): the model with unbounded integers is exact *)
Theorem C127_read_below w s this : 8 <= w <= 63 -> Z.of_nat (length (rest s)) < 2 ^ (w - 1) ->
  Int_read_n w s this = Int_read s this.
Proof. intros Hw. exact (Int_read_same w Hw s this). Qed.
Print Assumptions C127_read_below.

Theorem C127_string_below w t : 8 <= w <= 63 -> Z.of_nat (length t) < 2 ^ (w - 1) ->
  Int_of_string_n w t = Int_of_string t /\ Frac_of_string_n w t = Frac_of_string t.
Proof. intros Hw L. exact (conj (Int_of_string_same w Hw t L) (Frac_of_string_same w Hw t L)). Qed.
Print Assumptions C127_string_below.

Theorem C127_compare_below w f x y : 8 <= w <= 63 -> wf x -> wf y ->
  Z.of_nat (length (bins x)) <= 2 ^ (w - 1) -> Z.of_nat (length (bins y)) <= 2 ^ (w - 1) ->
  cmp_bins_n w (2 + f) x y = Ok (cmp_bins x y) /\ cmp_n w (2 + f) x y = cmp x y.
Proof. intros Hw [Nx _] [Ny _] Hx Hy. exact (conj (cmp_bins_same w Hw f x y Nx Ny Hx Hy) (cmp_same w Hw f x y Nx Ny Hx Hy)). Qed.
Print Assumptions C127_compare_below.

Theorem C127_print_below w o x : 8 <= w <= 63 -> Z.of_nat (length (bins x)) <= 2 ^ (w - 1) ->
  Int_print_n w o x = (Int_print o x, Ok tt).
Proof. intros Hw. exact (Int_print_same w Hw o x). Qed.
Print Assumptions C127_print_below.

Theorem C127_divide_below w f x y : 8 <= w <= 63 -> wf x -> wf y ->
  Z.of_nat (length (bins x)) < 2 ^ (w - 1) -> Z.of_nat (length (bins y)) <= 2 ^ (w - 1) ->
  divide_n w (2 + f) x y = divide x y.
Proof. intros Hw. exact (divide_same w Hw f x y). Qed.
Print Assumptions C127_divide_below.

Example C127_below_example :
  Int_of_string_n 32 (list_ascii_of_string "-0012345678901") = Ok (mkInt [345678901; 12] true) /\
  cmp_n 32 2 (mkInt [5; 7] false) (mkInt [5; 7] true) = Ok 1 /\
  divide_n 32 2 (mkInt [0; 7; 6] true) (mkInt [0; 4] false) = Ok (mkInt [500000001; 1] true) /\
  obuf (fst (Int_print_n 32 fresh_out (mkInt [5; 7] true))) = list_ascii_of_string "-7000000005" /\
  Frac_of_string_n 32 (list_ascii_of_string "6/-4") = Ok (mkFrac (mkInt [3] true) (mkInt [2] false)).
Proof. vm_compute. repeat split. Qed.

(** *** Reading a longer text *)
Theorem C127_read_any w s this neg zs ds t r : 8 <= w <= 63 -> good s = true ->
  rest s = sign_text neg ++ zs ++ ds ++ t -> Forall (fun c => c = "0"%char) zs -> significant ds -> ends_numeral t ->
  becomes w (Z.of_nat (length ds)) r ->
  exists s' x0 x, Int_read s this = Ok (s', x0) /\ int_text (sign_text neg ++ zs ++ ds) (val x0) /\
    Int_read_n w s this = Ok (s', x) /\ outcome neg ds r x.
Proof.
  intros Hw Hg Hr Hz Hs Ht W. destruct (Int_read_any w Hw s this neg zs ds t r Hg Hr Hz Hs Ht W) as (x & E & O).
  assert (Hd : exists n, numeral (zs ++ ds) n).
  { exists (nv 0 (zs ++ ds)). apply numeral_iff. destruct Hs as (c & ds' & n & -> & Hn & _). apply numeral_iff in Hn as (Hne & Hd & _). splits; auto.
    - destruct zs; discriminate.
    - apply Forall_app. split; [|exact Hd]. eapply Forall_impl; [|exact Hz]. intros a ->. reflexivity. }
  destruct Hd as [n Hn]. assert (T : int_text (sign_text neg ++ zs ++ ds) (signed neg n)) by (destruct neg; cbn [sign_text app signed]; constructor; exact Hn).
  destruct (Int_read_ok s (sign_text neg ++ zs ++ ds) (signed neg n) t this Hg) as (x0 & E0 & C0 & V0); [rewrite Hr, <- !app_assoc; reflexivity|exact T|exact Ht|].
  exists (stop_stream t (rev (sign_text neg ++ zs ++ ds) ++ back s)), x0, x. rewrite V0. auto.
Qed.
Print Assumptions C127_read_any.

Theorem C127_string_any w neg zs ds r : 8 <= w <= 63 -> Forall (fun c => c = "0"%char) zs -> significant ds ->
  becomes w (Z.of_nat (length ds)) r ->
  exists x, Int_of_string_n w (sign_text neg ++ zs ++ ds) = Ok x /\ outcome neg ds r x.
Proof. intros Hw. exact (Int_of_string_any w Hw neg zs ds r). Qed.
Print Assumptions C127_string_any.

Theorem C127_string_refuses w t : 8 <= w <= 63 -> (forall z, ~ int_text t z) -> Int_of_string_n w t = Throw InvalidArgument.
Proof. intros Hw. exact (Int_of_string_refuses w Hw t). Qed.
Print Assumptions C127_string_refuses.

(** with the int of the code *)
Lemma ones_significant n : significant (repeat "1"%char (S n)).
Proof.
  exists "1"%char, (repeat "1"%char n), (nv 0 (repeat "1"%char (S n))). split; [reflexivity|]. split; [|discriminate]. apply numeral_iff. split; [discriminate|]. split; [|reflexivity].
  apply Forall_forall. intros a Ha. apply repeat_spec in Ha as ->. reflexivity.
Qed.
Theorem C127_string_32 n :
  (Z.of_nat n = 2 ^ 31 -> Int_of_string_n 32 (repeat "1"%char n) = Ok (mkInt [] false)) /\
  (Z.of_nat n = 2 ^ 32 -> Int_of_string_n 32 (repeat "1"%char n) = Ok (mkInt [0] false)) /\
  (Z.of_nat n = 2 ^ 32 + 5 -> Int_of_string_n 32 (repeat "1"%char n) = Ok (mkInt [11111] false)).
Proof.
  assert (G : forall r, 0 < Z.of_nat n -> becomes 32 (Z.of_nat n) r -> exists x, Int_of_string_n 32 (repeat "1"%char n) = Ok x /\ outcome false (repeat "1"%char n) r x).
  { intros r Hn W. apply (C127_string_any 32 false [] (repeat "1"%char n) r); [lia|constructor| |rewrite repeat_length; exact W]. destruct n; [lia|]. apply ones_significant. }
  change (2 ^ 31) with 2147483648. change (2 ^ 32) with 4294967296. split; [|split]; intros E.
  - destruct (G (-2147483648)) as (x & -> & [[_ ->]|[[H _]|[H _]]]); [lia| |reflexivity|lia|lia]. split; [change (2 ^ (32 - 1)) with 2147483648; lia|]. exists 1. rewrite E. reflexivity.
  - destruct (G 0) as (x & -> & [[H _]|[[_ ->]|[H _]]]); [lia| |lia|reflexivity|lia]. split; [change (2 ^ (32 - 1)) with 2147483648; lia|]. exists 1. rewrite E. reflexivity.
  - destruct (G 5) as (x & -> & [[H _]|[[H _]|[_ [C (v & Hv & V)]]]]); [lia| |lia|lia|].
    + split; [change (2 ^ (32 - 1)) with 2147483648; lia|]. exists 1. rewrite E. reflexivity.
    + f_equal. replace (firstn (Z.to_nat 5) (repeat "1"%char n)) with (repeat "1"%char 5) in Hv.
      * apply numeral_iff in Hv as (_ & _ & ->). apply canonical_unique_lemma; [exact C| |exact V]. apply mk_canonical; [constructor; [unfold digit_ok; lia|constructor]|apply trimmedb_spec; [discriminate|reflexivity]|discriminate].
      * change (Z.to_nat 5) with 5%nat. do 5 (destruct n as [|n]; [lia|]). reflexivity.
Qed.
Print Assumptions C127_string_32.

Example C127_read_example :
  Int_of_string_n 8 (repeat "1"%char 128) = Ok (mkInt [] false) /\
  Int_of_string_n 8 (list_ascii_of_string "-00" ++ repeat "7"%char 200) = Ok (mkInt [] true) /\
  Int_of_string_n 8 (repeat "7"%char 256) = Ok (mkInt [0] false) /\
  Int_of_string_n 8 (list_ascii_of_string "-" ++ repeat "7"%char 267) = Ok (mkInt [777777777; 77] true) /\
  becomes 8 267 11 /\ becomes 8 200 (-56).
Proof. unfold becomes. splits; try (vm_compute; reflexivity); try lia; [exists 1|exists 1]; reflexivity. Qed.

(** *** Comparing longer numbers *)
Theorem C127_compare_lengths w f x y o : 8 <= w <= 63 ->
  becomes w (Z.of_nat (length (bins y)) - Z.of_nat (length (bins x))) o ->
  (0 < o -> big_number y -> cmp_bins_n w (1 + f) x y = Ok (-1)) /\
  (- 2 ^ (w - 1) < o < 0 -> big_number x -> cmp_bins_n w (2 + f) x y = Ok 1) /\
  (o = - 2 ^ (w - 1) -> cmp_bins_n w f x y = OutOfFuel).
Proof.
  intros Hw W. split; [|split].
  - intros H G. exact (cmp_pos w Hw f x y o G W H).
  - intros H G. exact (cmp_neg w Hw f x y o G W (proj2 H) ltac:(lia)).
  - intros ->. exact (cmp_endless w Hw f x y W).
Qed.
Print Assumptions C127_compare_lengths.

(** against 0 *)
Theorem C127_compare_zero w f x o : 8 <= w <= 63 -> Z.of_nat (length (bins x)) < 2 ^ 63 -> bins x <> [] ->
  becomes w (1 - Z.of_nat (length (bins x))) o -> 0 < o ->
  cmp_bins_n w (1 + f) x (mkInt [0] false) = Throw OutOfRange /\
  cmp_bins_n w (2 + f) (mkInt [0] false) x = Throw OutOfRange.
Proof. intros Hw L N W H. exact (cmp_zero w Hw f x o L N W H). Qed.
Print Assumptions C127_compare_zero.

Theorem C127_compare_bins w f x y : 8 <= w <= 63 ->
  Z.of_nat (length (bins x)) < 2 ^ 63 -> Z.of_nat (length (bins y)) < 2 ^ 63 ->
  becomes w (Z.of_nat (length (bins y)) - Z.of_nat (length (bins x))) 0 ->
  (forall i, reachable w x y i -> (forall j, (j < i)%nat -> from_top x j = from_top y j) -> from_top x i <> from_top y i ->
     cmp_bins_n w (1 + f) x y = Ok (if from_top x i <? from_top y i then -1 else 1)) /\
  ((forall i, reachable w x y i -> from_top x i = from_top y i) ->
     cmp_bins_n w (1 + f) x y =
       if (length (bins x) <=? length (bins y))%nat && (Z.of_nat (length (bins x)) <=? 2 ^ (w - 1)) then Ok 0 else Throw OutOfRange).
Proof.
  intros Hw Lx Ly W. split.
  - intros i R P D. exact (cmp_level_diff w Hw f x y i Lx Ly W R P D).
  - intros P. exact (cmp_level_same w Hw f x y Lx Ly W P).
Qed.
Print Assumptions C127_compare_bins.

(** 1 and 10^(9 * 2^32) compare equal, the other way round the comparison throws; 1 and
    10^(9 * 2^31) are compared for ever; with the bin more, 1 is the greater *)
Theorem C127_compare_32 n f : let x := mkInt [1] false in let y := mkInt (repeat 0 n ++ [1]) false in
  val y = B ^ Z.of_nat n /\
  (Z.of_nat n = 2 ^ 32 -> cmp_n 32 (1 + f) x y = Ok 0 /\ cmp_n 32 (1 + f) y x = Throw OutOfRange) /\
  (Z.of_nat n = 2 ^ 31 -> cmp_n 32 f x y = OutOfFuel /\ cmp_n 32 f y x = OutOfFuel) /\
  (Z.of_nat n = 2 ^ 31 + 1 -> cmp_n 32 (2 + f) x y = Ok 1 /\ cmp_n 32 (2 + f) y x = Ok (-1)).
Proof.
  intros x y. assert (Hw : 8 <= 32 <= 63) by lia.
  assert (Lx : length (bins x) = 1%nat) by reflexivity. assert (Ly : length (bins y) = (n + 1)%nat) by (cbn [bins y]; rewrite app_length, repeat_length; reflexivity).
  assert (Bx : big_number x) by (split; [apply trimmedb_spec; [discriminate|reflexivity]|split; [discriminate|reflexivity]]).
  assert (Vy : bins_val (bins y) = B ^ Z.of_nat n).
  { cbn [bins y]. rewrite bins_val_app, bins_val_repeat, repeat_length. cbn [bins_val]. unfold pw. lia. }
  assert (Ty : trimmed (bins y)).
  { cbn [bins y]. apply trimmed_app_nz. lia. }
  assert (By : Z.of_nat n < 2 ^ 62 -> big_number y).
  { intros H. split; [exact Ty|]. split; [rewrite Vy; pose proof (pw_pos n); unfold pw in *; lia|]. rewrite Ly. change (2 ^ 62) with 4611686018427387904 in H. change (2 ^ 63) with 9223372036854775808. lia. }
  assert (Z1 : equals_int32 x 0 = Ok false) by reflexivity.
  split; [unfold val; cbn [negative y]; exact Vy|].
  change (2 ^ 62) with 4611686018427387904 in By. change (2 ^ 32) with 4294967296. change (2 ^ 31) with 2147483648.
  assert (Tx : from_top x 0 = 1) by reflexivity. assert (Tt : from_top y 0 = 1) by (unfold from_top; cbn [bins y]; rewrite rev_app_distr; reflexivity).
  assert (BW : forall d r k, - 2147483648 <= r < 2147483648 -> d = r + k * 4294967296 -> becomes 32 d r).
  { intros d r k H1 H2. split; [exact H1|]. exists k. change (2 ^ 32) with 4294967296. lia. }
  assert (S63 : 2 ^ 63 = 9223372036854775808) by reflexivity.
  change (1 + f)%nat with (S f). change (2 + f)%nat with (S (S f)). split; [|split]; intros E; specialize (By ltac:(lia)).
  - split; unfold cmp_n.
    + rewrite (cmp_level_same 32 Hw f x y); [|unfold zlen; lia|unfold zlen; lia|apply (BW _ _ 1); [lia|unfold zlen; lia]|].
      * unfold zlen, size. rewrite Lx, Ly. replace ((1 <=? n + 1)%nat && (Z.of_nat 1 <=? 2 ^ (32 - 1))) with true; [reflexivity|]. change (2 ^ (32 - 1)) with 2147483648. lia.
      * intros j (_ & J & _). rewrite Lx in J. replace j with 0%nat by lia. lia.
    + rewrite (cmp_level_same 32 Hw f y x); [|unfold zlen; lia|unfold zlen; lia|apply (BW _ _ (-1)); [lia|unfold zlen; lia]|].
      * unfold zlen, size. rewrite Lx, Ly. replace ((n + 1 <=? 1)%nat) with false by lia. reflexivity.
      * intros j (_ & _ & J). rewrite Lx in J. replace j with 0%nat by lia. lia.
  - split; unfold cmp_n.
    + rewrite (cmp_endless 32 Hw f x y); [reflexivity|]. apply (BW _ _ 1); [change (2 ^ (32 - 1)) with 2147483648; lia|change (2 ^ (32 - 1)) with 2147483648; unfold zlen; lia].
    + rewrite (cmp_endless 32 Hw f y x); [reflexivity|]. apply (BW _ _ 0); [change (2 ^ (32 - 1)) with 2147483648; lia|change (2 ^ (32 - 1)) with 2147483648; unfold zlen; lia].
  - split; unfold cmp_n.
    + rewrite (cmp_neg 32 Hw f x y (- 2147483647)); [reflexivity|exact Bx|apply (BW _ _ 1); [lia|unfold zlen; lia]|lia|change (2 ^ (32 - 1)) with 2147483648; lia].
    + rewrite (cmp_pos 32 Hw (S f) y x 2147483647); [reflexivity|exact Bx|apply (BW _ _ (-1)); [lia|unfold zlen; lia]|lia].
Qed.
Print Assumptions C127_compare_32.

Example C127_compare_example :
  let y n := mkInt (repeat 0 n ++ [1]) false in
  cmp_n 8 5 (mkInt [1] false) (y 126%nat) = Ok (-1) /\
  cmp_n 8 5 (mkInt [1] false) (y 128%nat) = OutOfFuel /\
  cmp_n 8 5 (mkInt [1] false) (y 129%nat) = Ok 1 /\
  cmp_n 8 5 (mkInt [1] false) (y 256%nat) = Ok 0 /\
  cmp_n 8 5 (y 256%nat) (mkInt [1] false) = Throw OutOfRange /\
  cmp_n 8 5 (y 200%nat) (mkInt [0] false) = Throw OutOfRange /\ becomes 8 (1 - 201) 56.
Proof. cbv zeta. unfold becomes. splits; try (vm_compute; reflexivity); [lia|]. exists (-1). reflexivity. Qed.

(** *** Printing a longer number: the first 2^(w-1) bins are written, then std::out_of_range *)
Theorem C127_print_long w o x : 8 <= w <= 63 -> canonical x ->
  2 ^ (w - 1) < Z.of_nat (length (bins x)) < 2 ^ 63 -> owidth o = 0 ->
  exists s, canonical_text s (Z.quot (val x) (B ^ (Z.of_nat (length (bins x)) - 2 ^ (w - 1)))) /\
    obuf (fst (Int_print_n w o x)) = obuf o ++ s /\ snd (Int_print_n w o x) = Throw OutOfRange.
Proof.
  intros Hw C L Ho. destruct (Int_print_long w Hw o x C L Ho) as (s & Cs & H). exists s. split; [|exact H].
  unfold pw in Cs. pose proof (half_range w Hw). replace (Z.of_nat (length (bins x)) - 2 ^ (w - 1)) with (Z.of_nat (size x - Z.to_nat (2 ^ (w - 1)))); [exact Cs|]. unfold size. lia.
Qed.
Print Assumptions C127_print_long.

Example C127_print_example :
  let x := mkInt (repeat 5 130 ++ [7]) true in
  snd (Int_print_n 8 fresh_out x) = Throw OutOfRange /\
  length (obuf (fst (Int_print_n 8 fresh_out x))) = (2 + 9 * 127)%nat /\
  firstn 11 (obuf (fst (Int_print_n 8 fresh_out x))) = list_ascii_of_string "-7000000005".
Proof. vm_compute. repeat split. Qed.

(** *** Dividing a longer number *)
Theorem C127_divide_long w fuel x y c r : 8 <= w <= 63 -> canonical x -> canonical y -> val y <> 0 ->
  2 ^ (w - 1) <= Z.of_nat (length (bins x)) -> Z.of_nat (length (bins y)) < 2 ^ (w - 1) ->
  cmp_bins_n w fuel x y = Ok c -> 0 <= c ->
  becomes w (Z.of_nat (length (bins x))) r ->
  (r = - 2 ^ (w - 1) -> divide_n w fuel x y = UB) /\
  (r <> - 2 ^ (w - 1) -> exists q, divide_n w fuel x y = Ok q /\ canonical q /\
     let P := B ^ Z.max r 0 in
     val q = signed (xorb (negative x) (negative y)) (P * (Z.abs (val x) / P) + Z.abs (val x) mod P / Z.abs (val y))).
Proof.
  intros Hw Cx Cy Vy Lx _ Ec Hc W. destruct (divide_long w Hw fuel x y c r Cx Cy Vy Lx Ec Hc W) as [U D]. split; [exact U|]. intros N. destruct (D N) as (q & E & Cq & Vq). exists q. split; [exact E|]. split; [exact Cq|].
  cbv zeta. unfold pw in Vq. replace (Z.max r 0) with (Z.of_nat (Z.to_nat r)) by lia. exact Vq.
Qed.
Print Assumptions C127_divide_long.

(** with the int of the code: 10^(9 n) divided by b and by b * 10^9 *)
Theorem C127_divide_32 n f b : 1 < b < B -> let x := mkInt (repeat 0 n ++ [1]) false in
  val x = B ^ Z.of_nat n /\
  (Z.of_nat n = 2 ^ 31 - 1 -> divide_n 32 (2 + f) x (mkInt [b] false) = UB) /\
  (Z.of_nat n = 2 ^ 31 -> divide_n 32 f x (mkInt [b] false) = OutOfFuel) /\
  (Z.of_nat n = 2 ^ 31 + 1 -> divide_n 32 (1 + f) x (mkInt [b] false) = Ok (mkInt [0] false)) /\
  (Z.of_nat n = 2 ^ 31 -> divide_n 32 (2 + f) x (mkInt [0; b] false) = Ok x).
Proof.
  intros Hb x. assert (Hw : 8 <= 32 <= 63) by lia. assert (S31 : 2 ^ (32 - 1) = 2147483648) by reflexivity.
  assert (Lx : length (bins x) = (n + 1)%nat) by (cbn [bins x]; rewrite app_length, repeat_length; reflexivity).
  assert (Vx : bins_val (bins x) = B ^ Z.of_nat n).
  { cbn [bins x]. rewrite bins_val_app, bins_val_repeat, repeat_length. cbn [bins_val]. unfold pw. lia. }
  assert (Pn : 0 < B ^ Z.of_nat n) by (apply Z.pow_pos_nonneg; lia).
  assert (Cx : canonical x).
  { apply mk_canonical; [apply Forall_app; split; [apply Forall_forall; intros a Ha; apply repeat_spec in Ha as ->; apply digit_ok_0|constructor; [unfold digit_ok; lia|constructor]]|apply trimmed_app_nz; lia|discriminate]. }
  assert (Cy : canonical (mkInt [b] false)). { apply mk_canonical; [constructor; [unfold digit_ok; lia|constructor]|split; [discriminate|cbn; lia]|discriminate]. }
  assert (Cz : canonical (mkInt [0; b] false)). { apply mk_canonical; [constructor; [|constructor; [|constructor]]; unfold digit_ok; lia|split; [discriminate|cbn; lia]|discriminate]. }
  assert (Vy : val (mkInt [b] false) = b) by (unfold val; cbn; lia). assert (Vz : val (mkInt [0; b] false) = B * b) by (unfold val; cbn; lia).
  assert (By : big_number (mkInt [b] false)). { split; [apply Cy|]. split; [cbn; lia|reflexivity]. }
  assert (Nx : Z.of_nat n <= 4294967296 -> big_number x). { intros H. split; [apply Cx|]. split; [lia|]. rewrite Lx. change (2 ^ 63) with 9223372036854775808. lia. }
  assert (BW : forall d r k, - 2147483648 <= r < 2147483648 -> d = r + k * 4294967296 -> becomes 32 d r).
  { intros d r k H1 H2. split; [exact H1|]. exists k. change (2 ^ 32) with 4294967296. lia. }
  assert (Z0 : equals_int32 (mkInt [b] false) 0 = Ok false). { rewrite equals_int32_0 by apply Cy. unfold aval. cbn [bins bins_val]. do 2 f_equal. lia. }
  split; [exact Vx|]. change (2 ^ 31) with 2147483648. repeat split; intros E; specialize (Nx ltac:(lia)).
  - assert (Ec : cmp_bins_n 32 (2 + f) x (mkInt [b] false) = Ok 1).
    { apply (cmp_neg 32 Hw f x _ (- 2147483647)); [exact Nx|apply (BW _ _ 0); [lia|unfold zlen; rewrite Lx; cbn [bins length]; lia]|lia|lia]. }
    destruct (C127_divide_long 32 (2 + f) x (mkInt [b] false) 1 (- 2147483648)) as [U _]; try assumption; try lia; [cbn [bins length]; lia|apply (BW _ _ 1); lia|]. apply U. reflexivity.
  - unfold divide_n. rewrite Z0. cbn [bind]. rewrite (cmp_endless 32 Hw f x); [reflexivity|]. apply (BW _ _ 0); [lia|]. unfold zlen. rewrite Lx. cbn [bins length]. lia.
  - unfold divide_n. rewrite Z0. cbn [bind]. change (1 + f)%nat with (S f). rewrite (cmp_pos 32 Hw f x _ 2147483647); [reflexivity|exact By| |lia]. apply (BW _ _ (-1)); [lia|]. unfold zlen. rewrite Lx. cbn [bins length]. lia.
  - assert (Ec : cmp_bins_n 32 (2 + f) x (mkInt [0; b] false) = Ok 1).
    { apply (cmp_neg 32 Hw f x _ (- 2147483647)); [exact Nx|apply (BW _ _ 0); [lia|unfold zlen; rewrite Lx; cbn [bins length]; lia]|lia|lia]. }
    destruct (C127_divide_long 32 (2 + f) x (mkInt [0; b] false) 1 (- 2147483647)) as [_ D]; try assumption; try lia; [cbn [bins length]; lia|apply (BW _ _ 1); lia|].
    destruct (D ltac:(lia)) as (q & Eq & Cq & Vq). rewrite Eq. f_equal. apply canonical_unique_lemma; [exact Cq|exact Cx|]. rewrite Vq. change (Z.max (- 2147483647) 0) with 0. rewrite Z.pow_0_r, Z.mod_1_r, Z.div_1_r, Z.div_0_l by lia.
    cbn [xorb negative x signed]. assert (val x = B ^ Z.of_nat n) by exact Vx. lia.
Qed.
Print Assumptions C127_divide_32.

Example C127_divide_example :
  let x n := mkInt (repeat 5 n ++ [7]) true in
  divide_n 8 2 (x 125%nat) (mkInt [0; 5] false) = divide (x 125%nat) (mkInt [0; 5] false) /\
  divide_n 8 2 (x 127%nat) (mkInt [5] false) = UB /\
  divide_n 8 9 (x 128%nat) (mkInt [5] false) = OutOfFuel /\
  divide_n 8 2 (x 128%nat) (mkInt [0; 5] false) = Ok (x 128%nat) /\
  divide_n 8 2 (x 129%nat) (mkInt [5] false) = Ok (mkInt [0] false) /\
  divide_n 8 2 (x 258%nat) (mkInt [0; 2; 1] false) = Ok (mkInt ([4; 0; 0] ++ repeat 5 255 ++ [7]) true).
Proof. vm_compute. repeat split. Qed.

(** *** Frac(const string&): the position of the first '/' *)
Theorem C127_frac_far w t k r : 8 <= w <= 63 -> find_char SLASH t = Some k -> Z.of_nat (length t) < 2 ^ 63 ->
  2 ^ (w - 1) - 1 <= Z.of_nat k -> becomes w (Z.of_nat k) r ->
  (r = 2 ^ (w - 1) - 1 -> (exists z, int_text (firstn (Z.to_nat r) t) z) -> Frac_of_string_n w t = UB) /\
  (r <> 2 ^ (w - 1) - 1 \/ (forall z, ~ int_text (firstn (Z.to_nat r) t) z) -> Frac_of_string_n w t = Throw InvalidArgument).
Proof. intros Hw F L Hk W. exact (Frac_of_string_far w Hw t k r F W ltac:(lia) L). Qed.
Print Assumptions C127_frac_far.

Lemma slash_position ds t : ~ In SLASH ds -> find_char SLASH (ds ++ SLASH :: t) = Some (length ds).
Proof.
  induction ds as [|c ds IH]; intros N; [reflexivity|]. cbn [app find_char length]. destruct (Ascii.eqb c SLASH) eqn:E; [apply Ascii.eqb_eq in E as ->; elim N; left; reflexivity|].
  rewrite IH; [reflexivity|]. intros I. apply N. right. exact I.
Qed.

Example C127_frac_example :
  let t n := repeat "0"%char n ++ list_ascii_of_string "6/4" in
  Frac_of_string_n 8 (t 100%nat) = Ok (mkFrac (mkInt [3] false) (mkInt [2] false)) /\
  Frac_of_string_n 8 (t 126%nat) = UB /\
  Frac_of_string_n 8 (t 127%nat) = Throw InvalidArgument /\
  Frac_of_string_n 8 (t 300%nat) = Throw InvalidArgument /\
  Frac_of_string (t 300%nat) = Ok (mkFrac (mkInt [3] false) (mkInt [2] false)).
Proof. vm_compute. repeat split. Qed.
