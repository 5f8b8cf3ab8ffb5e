(** C133: how many rounds the loops of reading, printing and scaling make: exact
    numbers for the text of an Int, bounds for times_power_ten, Frac's text and
    from_double. Every bound holds also when the call ends in an exception or an
    assertion. *)
From Coq Require Import ZifyBool Ascii String SpecFloat.
From Verif Require Import Base IntModel IntSpec IntBasics IntAddSub IntMul IntDiv IntScale IOModel IOSpec IOProofs FracModel FracProofs.
From Verif Require Import CostModel IntCostModel IntCostSpec IntCost IntCost2 IntCost3 IntCost4 FracCostModel FracCostSpec FracCost FracCost2 FracCost3 IOCostModel IOCost.
Import ListNotations.
Local Open Scope list_scope.
Local Open Scope Z_scope.

(** The counted operations return what the operations return. *)
Theorem C133_same : forall o s x f t p d,
  fst (Int_print_c o x) = Int_print o x /\ fst (Frac_print_c o f) = Frac_print o f /\ fst (Int_read_c s x) = Int_read s x /\ fst (Int_of_string_c t) = Int_of_string t /\
  fst (times_power_ten_c x p) = times_power_ten x p /\ fst (Frac_of_string_c t) = Frac_of_string t /\ fst (Frac_read_c s f) = result (snd (Frac_read s f)) /\
  fst (from_double_c d p) = from_double d p.
Proof.
  intros o s x f t p d.
  exact (conj (Int_print_e o x) (conj (Frac_print_e o f) (conj (Int_read_e s x) (conj (Int_of_string_e t) (conj (times_power_ten_e x p) (conj (Frac_of_string_e t) (conj (Frac_read_e s f) (from_double_e d p)))))))).
Qed.
Print Assumptions C133_same.

(** Printing: one round for every bin, except the leading nonzero one. *)
Theorem C133_print : forall o x, wf x -> snd (Int_print_c o x) = limbs x - (if val x =? 0 then 0 else 1).
Proof. exact Int_print_n. Qed.
Print Assumptions C133_print.
Theorem C133_print_frac : forall o f, wf (top f) -> wf (bot f) ->
  snd (Frac_print_c o f) = limbs (top f) + limbs (bot f) - (if val (top f) =? 0 then 0 else 1) - (if val (bot f) =? 0 then 0 else 1).
Proof.
  intros o f Ht Hb. unfold Frac_print_c. cbn [snd]. rewrite !Int_print_n by auto. unfold limbs, IntCostModel.len. lia.
Qed.
Print Assumptions C133_print_frac.

(** Reading: each leading zero is seen once, each other digit twice, and one round goes to
    each bin of nine. *)
Theorem C133_read : forall s sign zeros digs t x, good s = true -> rest s = sign ++ zeros ++ digs ++ t ->
  sign = [] \/ sign = ["-"%char] -> Forall (fun c => c = "0"%char) zeros -> digs = [] \/ (exists n, numeral digs n) -> (forall c r, digs = c :: r -> c <> "0"%char) -> zeros ++ digs <> [] -> ends_numeral t ->
  let d := Z.of_nat (List.length digs) in snd (Int_read_c s x) = Z.of_nat (List.length zeros) + 2 * d + d / 9.
Proof.
  intros s sg zs ds t x G R Hs Hz Hd H0 Ne Ht d.
  assert (D : digits ds) by (destruct Hd as [->|[n Hn]]; [constructor|apply numeral_iff in Hn; apply Hn]). refine (Int_read_n s sg zs ds t x G R Hs Hz _ D Ne (proj1 (ends_starts t) Ht)).
  destruct ds as [|c r]; [reflexivity|]. cbn. apply Ascii.eqb_neq. exact (H0 c r eq_refl).
Qed.
Print Assumptions C133_read.
Theorem C133_read_nothing : forall s x, good s = false \/ no_int_prefix (rest s) -> snd (Int_read_c s x) = 0.
Proof. intros s x H. destruct (good s) eqn:G; [|exact (Int_read_n_not_good s x G)]. destruct H as [H|H]; [discriminate|]. exact (Int_read_n_fail s x G H). Qed.
Print Assumptions C133_read_nothing.
(** Any text of l characters, right or wrong. *)
Theorem C133_read_any : forall s x t, let l := Z.of_nat (List.length (rest s)) in let k := Z.of_nat (List.length t) in
  snd (Int_read_c s x) <= 19 * l / 9 /\ snd (Int_of_string_c t) <= 19 * k / 9.
Proof.
  intros s x t l k. destruct (Int_read_any s x) as (s' & y & _ & [_ H] & _). destruct (Int_of_string_sp t) as [K _]. unfold clen in *.
  split; apply Z.div_le_lower_bound; unfold l, k; lia.
Qed.
Print Assumptions C133_read_any.

(** times_power_ten upwards multiplies by ten up to eight times, however small the
    number of bins it then inserts: quadratic, and no better where p is not a multiple of 9. *)
Theorem C133_scale_up : forall x p, canonical x -> 0 < p -> let n := limbs x in
  snd (times_power_ten_c x p) <= (p mod 9) * (n ^ 2 + 10 * n + 17) + p / 9.
Proof. intros x p C P n. eapply Z.le_trans; [exact (tpt_up x p C P)|]. unfold mul10. change (IntCostModel.len (bins x)) with n. nia. Qed.
Print Assumptions C133_scale_up.
Theorem C133_scale_up_quadratic : forall x p, canonical x -> full x -> 0 < p -> p mod 9 <> 0 -> let n := limbs x in
  n ^ 2 + 5 * n + 1 + p / 9 < snd (times_power_ten_c x p).
Proof. intros x p C [_ N] P M. exact (tpt_up_co x p N C P M). Qed.
Print Assumptions C133_scale_up_quadratic.
Theorem C133_scale_up_nine : forall x k, 0 < k -> snd (times_power_ten_c x (9 * k)) = k.
Proof.
  intros x k K. unfold times_power_ten_c. replace (9 * k >? 0) with true by lia. unfold BIN_WIDTH. rewrite Z.quot_div_nonneg, Z.rem_mod_nonneg by lia.
  replace ((9 * k) mod 9) with 0 by (rewrite Z.mul_comm, Z.mod_mul by lia; reflexivity). replace (9 * k / 9) with k by (rewrite Z.mul_comm, Z.div_mul by lia; reflexivity). reflexivity.
Qed.
Print Assumptions C133_scale_up_nine.
(** Downwards: the bins dropped, and up to eight divisions of the rest by ten. *)
Theorem C133_scale_down : forall x p, wf x -> - 2 ^ 31 < p < 0 -> let n := limbs x in let q := - p / 9 in
  snd (times_power_ten_c x p) <= Z.min q n + (- p mod 9) * (7575 * Z.max 0 (n - q) + 6).
Proof. intros x p W P n q. exact (tpt_down x p W P). Qed.
Print Assumptions C133_scale_down.

(** Frac from text of l characters: both parts, the test of the denominator, the reduction. *)
Theorem C133_frac_text : forall t, let l := Z.of_nat (List.length t) in let n := l / 9 + 1 in
  snd (Frac_of_string_c t) <= 19 * l / 9 + n + reduction n.
Proof. exact Frac_of_string_sp. Qed.
Print Assumptions C133_frac_text.
Theorem C133_frac_read : forall s f n, frac_fits n f -> let l := Z.of_nat (List.length (rest s)) in
  snd (Frac_read_c s f) <= 19 * l / 9 + reduction (Z.max n (l / 9 + 1)).
Proof. exact Frac_read_sp. Qed.
Print Assumptions C133_frac_read.
(** from_double, by the length of the fixed notation of the number. *)
Theorem C133_double : forall x p, let l := Z.of_nat (List.length (fixed_text x (stream_precision p))) in let n := l / 9 + 1 in
  snd (from_double_c x p) <= 19 * l / 9 + (224 + l / 9) + (3 * n + reduction n).
Proof. exact from_double_sp. Qed.
Print Assumptions C133_double.

Definition chars_of (s : string) : chars := list_ascii_of_string s.
Example C133_printing : (snd (Int_print_c (mkOut [] 0 " "%char) (mkInt [1; 0; 2; 0; 0] true)), snd (Int_print_c (mkOut [] 0 " "%char) (mkInt [0; 0] false)), snd (Frac_print_c (mkOut [] 0 " "%char) (mkFrac (mkInt [5; 6] true) (mkInt [7] false)))) = (4, 2, 1).
Proof. vm_compute. reflexivity. Qed.
Example C133_reading : (snd (Int_read_c (istream_of (chars_of "-0001234567890123/2")) (mkInt [0] false)), snd (Int_of_string_c (chars_of "000")), snd (Int_of_string_c (chars_of "-x1"))) = (3 + 26 + 1, 3, 0).
Proof. vm_compute. reflexivity. Qed.
Example C133_scaling : let x := mkInt [123456789; 987654321; 5] true in
  (snd (times_power_ten_c x 1), 3 ^ 2 + 10 * 3 + 17, 3 ^ 2 + 5 * 3 + 1, snd (times_power_ten_c x 900), snd (times_power_ten_c x (-10)), snd (times_power_ten_c x (-900))) = (32, 56, 25, 100, 965, 3).
Proof. vm_compute. reflexivity. Qed.
Example C133_fracs : (Frac_of_string (chars_of "6/-4"), snd (Frac_of_string_c (chars_of "6/-4")), snd (Frac_of_string_c (chars_of "6/0")), snd (Frac_read_c (istream_of (chars_of "(6/4)")) (mkFrac (mkInt [0] false) (mkInt [1] false))), snd (from_double_c (S754_finite false 5 (-1)) 2))
  = (Ok (mkFrac (mkInt [3] true) (mkInt [2] false)), 1863, 3, 1863, 2011).
Proof. vm_compute. reflexivity. Qed.
