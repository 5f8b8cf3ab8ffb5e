(** Printing, reading and scaling again (src/Int.cpp:24-40, 50-127, 313-320, 465-487;
    src/Frac.cpp:11-60, 68-98, 126-144), counting the rounds of the loops written in
    src/Int.cpp, src/Int.hpp and src/Frac.cpp as in IntCostModel.v: every function returns
    what the function of IntModel.v, IOModel.v or FracModel.v returns (IOCost.v) and the
    number of rounds begun until then. What the streams and std::string do is not counted. *)
From Verif Require Import Base IntModel IOModel FracModel CostModel IntCostModel FracCostModel.
Local Open Scope list_scope.
Local Open Scope Z_scope.

(** Int::print -- src/Int.cpp:24-40; a round for each bin skipped and each bin after the first
    one printed *)
Fixpoint skip_zero_bins_c (r : list Z) : list Z * Z :=
  match r with
  | b :: r' => if b =? 0 then let p := skip_zero_bins_c r' in (fst p, 1 + snd p) else (r, 0)
  | [] => ([], 0)
  end.
Fixpoint print_bins_c (o : ostream) (r : list Z) : ostream * Z :=
  match r with
  | [] => (o, 0)
  | b :: r' => let p := print_bins_c (put (setfill ZERO (setw BIN_WIDTH o)) (dec_int32 b)) r' in (fst p, 1 + snd p)
  end.
Definition Int_print_c (o : ostream) (x : Int) : ostream * Z :=
  let o := if negative x then put o [MINUS] else o in
  let p := skip_zero_bins_c (rev (bins x)) in
  match fst p with
  | [] => (put o (dec_int32 0), snd p)
  | b :: r => let q := print_bins_c (put o (dec_int32 b)) r in (fst q, snd p + snd q)
  end.
(** src/Frac.cpp:11-14 *)
Definition Frac_print_c (o : ostream) (f : Frac) : ostream * Z :=
  let p := Int_print_c (put o [LPAR]) (top f) in
  let q := Int_print_c (put (fst p) [SLASH]) (bot f) in
  (put (fst q) [RPAR], snd p + snd q).

(** parse_int -- src/Int.cpp:50-62 *)
Fixpoint take_digits_c (n : nat) (ss : chars) : chars * chars * Z :=
  match n, ss with
  | S n', c :: ss' =>
      if isdigit c then let '(d, r, k) := take_digits_c n' ss' in (c :: d, r, 1 + k) else ([], ss, 0)
  | _, _ => ([], ss, 0)
  end.
Definition parse_int_c (ss : chars) (max_digits : Z) : counted (Z * chars) :=
  let '(d, r, k) := take_digits_c (Z.to_nat max_digits) ss in
  (v <- extract_int32 d ;; Ok (v, r), k).
(** src/Int.cpp:97-104, 119-123 *)
Fixpoint skip_zeros_c (fuel : nat) (s : istream) : counted istream :=
  match fuel with
  | O => free OutOfFuel
  | S f =>
      let '(c, s) := peek s in
      if is_char c ZERO then lap (skip_zeros_c f (snd (get s))) else free (Ok s)
  end.
Fixpoint read_digits_c (fuel : nat) (s : istream) (acc : chars) : counted (istream * chars) :=
  match fuel with
  | O => free OutOfFuel
  | S f =>
      let '(c, s) := peek s in
      if isdigit_opt c then
        lap (match get s with
             | (Some c, s) => read_digits_c f s (acc ++ [c])
             | (None, s) => read_digits_c f s acc
             end)
      else free (Ok (s, acc))
  end.
Fixpoint read_bins_c (fuel : nat) (ss : chars) (count num_digits : Z) (bs : list Z) : counted (list Z) :=
  match fuel with
  | O => free OutOfFuel
  | S f =>
      if count <? num_digits then
        lap (p <-- parse_int_c ss BIN_WIDTH ;;;
             read_bins_c f (snd p) (count + BIN_WIDTH) num_digits (fst p :: bs))
      else free (Ok bs)
  end.
(** Int::read -- src/Int.cpp:73-127 *)
Definition read_magnitude_c (s : istream) (neg : bool) : counted (istream * Int) :=
  let fuel := S (length (rest s)) in
  s <-- skip_zeros_c fuel s ;;;
  p <-- read_digits_c fuel s [] ;;;
  let '(s, ds) := p in
  let num_digits := Z.of_nat (length ds) in
  if num_digits =? 0 then
    x <-- free (set_value 0) ;;; free (Ok (clear_fail s, x))
  else
    let k := Z.rem num_digits BIN_WIDTH in
    q <-- (if k >? 0 then p <-- parse_int_c ds k ;;; free (Ok ([fst p], snd p, k))
           else free (Ok ([], ds, 0))) ;;;
    let '(bs, ss, count) := q in
    bs <-- read_bins_c (S (length ds)) ss count num_digits bs ;;;
    free (Ok (s, mkInt bs neg)).
Definition Int_read_c (s : istream) (this : Int) : counted (istream * Int) :=
  let '(ok, s) := sentry s in
  if negb ok then free (Ok (s, this))
  else
    let '(c, s) := peek s in
    if is_char c MINUS then
      let s := snd (get s) in
      let '(d, s) := peek s in
      if isdigit_opt d then read_magnitude_c s true
      else free (Ok (set_fail (unget s), this))
    else
      let '(d, s) := peek s in
      if isdigit_opt d then read_magnitude_c s false
      else free (Ok (set_fail s, this)).
(** Int::Int(const std::string&) -- src/Int.cpp:313-320 *)
Definition Int_of_string_c (t : chars) : counted Int :=
  p <-- Int_read_c (istream_of t) (mkInt [] false) ;;;
  let '(s, x) := p in
  free (if fail s || negb (eofbit s) then Throw InvalidArgument else Ok x).

(** Int::times_power_ten -- src/Int.cpp:465-487; the loops that push or pop one bin are
    counted at once *)
Fixpoint iter_mul10_c (n : nat) (x : Int) : counted Int :=
  match n with
  | O => free (Ok x)
  | S n' => lap (ten <-- of_int64_c 10 0 ;;; r <-- mul_assign_c x (Some ten) ;;; iter_mul10_c n' r)
  end.
Fixpoint iter_div10_c (n : nat) (x : Int) : counted Int :=
  match n with
  | O => free (Ok x)
  | S n' => lap (ten <-- of_int64_c 10 0 ;;; r <-- div_assign_c x (Some ten) ;;; iter_div10_c n' r)
  end.
Definition times_power_ten_c (this : Int) (power : Z) : counted Int :=
  if power >? 0 then
    t <-- iter_mul10_c (Z.to_nat (Z.rem power BIN_WIDTH)) this ;;;
    (Ok (mkInt (repeat 0 (Z.to_nat (Z.quot power BIN_WIDTH)) ++ bins t) (negative t)), Z.quot power BIN_WIDTH)
  else if power <? 0 then
    pow <-- free (i32 (- power)) ;;;
    let bs := skipn (Z.to_nat (Z.quot pow BIN_WIDTH)) (bins this) in
    _ <-- (Ok tt, Z.min (Z.quot pow BIN_WIDTH) (len (bins this))) ;;;
    match bs with
    | [] => free (set_value 0)
    | _ => iter_div10_c (Z.to_nat (Z.rem pow BIN_WIDTH)) (mkInt bs (negative this))
    end
  else free (Ok this).

(** Frac::Frac(const string&) -- src/Frac.cpp:126-144; the members are first 0 and 1 *)
Definition Frac_of_string_c (x : chars) : counted Frac :=
  match x with
  | [] => free Frac_default
  | _ =>
      f <-- match find_slash x with
            | None => t <-- Int_of_string_c x ;;; b <-- of_int64_c 1 0 ;;; free (Ok (mkFrac t b))
            | Some (l, r) => t <-- Int_of_string_c l ;;; b <-- Int_of_string_c r ;;; free (Ok (mkFrac t b))
            end ;;;
      z <-- equals_c (bot f) 0 ;;;
      if z : bool then free (Throw InvalidArgument) else normalize_c f
  end.
(** Frac::read -- src/Frac.cpp:16-60. As in FracCostModel.v the object left behind by a
    failing call is left out; the call is normalize at the end in every case. *)
Definition Frac_read_c (s : istream) (this : Frac) : counted Frac :=
  let '(ok, s) := sentry s in
  if negb ok then free (Ok this)
  else
    let '(c, s) := peek s in
    let s := if is_char c LPAR then snd (get s) else s in
    p <-- Int_read_c s (top this) ;;;
    let '(s, t) := p in
    if negb (fail s) then
      let '(c, s) := peek s in
      if is_char c SLASH then
        q <-- Int_read_c (snd (get s)) (bot this) ;;; normalize_c (mkFrac t (snd q))
      else
        b <-- free (set_value 1) ;;; normalize_c (mkFrac t b)
    else normalize_c (mkFrac t (bot this)).
(** Frac::from_double -- src/Frac.cpp:68-98 *)
Definition from_double_c (x : SpecFloat.spec_float) (p : Z) : counted Frac :=
  let sx := fixed_text x (stream_precision p) in
  if negb (isFinite x) then free (Throw InvalidArgument)
  else
    match find_dot sx with
    | None => free UB
    | Some (l, r) =>
        t <-- Int_of_string_c (l ++ r) ;;;
        b <-- of_int64_c 1 0 ;;;
        b <-- times_power_ten_c b (Z.of_nat (length r)) ;;;
        Frac_make_c t b
    end.
