(** Reading, comparing, printing and dividing Ints, and Frac's constructor from a
    string, once more, with the variables of type int and int32_t that hold sizes,
    positions and numbers of digits as such: src/Int.cpp:29-39, 72-127, 313-320, 348-362,
    377-391, 603-643; src/Int.hpp:74-79, 100; src/Frac.cpp:129-144. IntModel, IOModel and
    FracModel have unbounded integers there.

    int has [w] bits (32 in the code); converting a size_t to it keeps the last w bits,
    as every compiler does (C++20 requires it). size_t has 64 bits. Signed overflow is
    undefined. A deque or a string has fewer than 2^63 elements.

    The numbers that the division loop handles besides the dividend have at most one bin
    more than the divisor; they are treated as in IntModel. *)
From Coq Require Import Ascii String.
From Verif Require Import Base IntModel IOModel FracModel.
Local Open Scope list_scope.
Local Open Scope Z_scope.

Section Width.
Variable w : Z.

(** the conversion to int; [size64] the value of an expression of type size_t *)
Definition narrow (z : Z) : Z := (z + 2 ^ (w - 1)) mod 2 ^ w - 2 ^ (w - 1).
Definition size64 (z : Z) : Z := z mod 2 ^ 64.
(** a sum or difference of ints *)
Definition int_ (z : Z) : res Z := if (- 2 ^ (w - 1) <=? z) && (z <? 2 ^ (w - 1)) then Ok z else UB.
Definition zlen {A} (l : list A) : Z := Z.of_nat (length l).

(** *** Reading *)
(** src/Int.cpp:119-123 *)
Fixpoint read_bins_n (fuel : nat) (ss : chars) (count num_digits : Z) (bs : list Z) : res (list Z) :=
  match fuel with
  | O => OutOfFuel
  | S f =>
      if count <? num_digits then
        '(n, ss) <- parse_int ss BIN_WIDTH ;;
        count <- int_ (count + BIN_WIDTH) ;;
        read_bins_n f ss count num_digits (n :: bs)
      else Ok bs
  end.
(** src/Int.cpp:107-126: int num_digits = digit_ss.str().size(); *)
Definition parse_digits_n (ds : chars) (neg : bool) : res (option Int) :=
  let num_digits := narrow (zlen ds) in
  if num_digits =? 0 then Ok None
  else
    let k := Z.rem num_digits BIN_WIDTH in
    '(bs, ss, count) <- (if k >? 0 then '(n, ss) <- parse_int ds k ;; count <- int_ (0 + k) ;; Ok ([n], ss, count)
                         else Ok ([], ds, 0)) ;;
    bs <- read_bins_n (S (length ds)) ss count num_digits bs ;;
    Ok (Some (mkInt bs neg)).
(** src/Int.cpp:95-127 *)
Definition read_magnitude_n (s : istream) (neg : bool) : res (istream * Int) :=
  let fuel := S (length (rest s)) in
  s <- skip_zeros fuel s ;;
  '(s, ds) <- read_digits fuel s [] ;;
  x <- parse_digits_n ds neg ;;
  match x with
  | None => x <- set_value 0 ;; Ok (clear_fail s, x)
  | Some x => Ok (s, x)
  end.
(** src/Int.cpp:72-93 *)
Definition Int_read_n (s : istream) (this : Int) : res (istream * Int) :=
  let '(ok, s) := sentry s in
  if negb ok then Ok (s, this)
  else
    let '(c, s) := peek s in
    if is_char c MINUS then
      let s := snd (get s) in
      let '(d, s) := peek s in
      if isdigit_opt d then read_magnitude_n s true
      else Ok (set_fail (unget s), this)
    else
      let '(d, s) := peek s in
      if isdigit_opt d then read_magnitude_n s false
      else Ok (set_fail s, this).
(** src/Int.cpp:313-320 *)
Definition Int_of_string_n (t : chars) : res Int :=
  '(s, x) <- Int_read_n (istream_of t) (mkInt [] false) ;;
  if fail s || negb (eofbit s) then Throw InvalidArgument else Ok x.

(** *** Access from the back -- src/Int.hpp:100; the argument is a size_t *)
Definition at64 (l : list Z) (k : Z) : res Z := if k <? zlen l then at_ l (Z.to_nat k) else Throw OutOfRange.
Definition from_back (l : list Z) (i : Z) : res Z := at64 l (size64 (zlen l - 1 - narrow i)).

(** *** Comparing *)
(** src/Int.cpp:354-356 *)
Fixpoint any_nonzero (n : nat) (i : Z) (l : list Z) : res bool :=
  match n with
  | O => Ok false
  | S n' => b <- from_back l i ;; if b =? 0 then any_nonzero n' (i + 1) l else Ok true
  end.
(** src/Int.cpp:358-361 *)
Fixpoint cmp_loop_n (n : nat) (i offset : Z) (a b : list Z) : res Z :=
  match n with
  | O => Ok 0
  | S n' =>
      p <- from_back a i ;; q <- from_back b (size64 (offset + i)) ;;
      let t := cmp_ints p q in
      if t =? 0 then cmp_loop_n n' (i + 1) offset a b else Ok t
  end.
(** src/Int.cpp:348-362; [fuel] bounds the depth of the recursion *)
Fixpoint cmp_bins_n (fuel : nat) (this x : Int) : res Z :=
  match fuel with
  | O => OutOfFuel
  | S f =>
      let offset := narrow (size64 (zlen (bins x) - zlen (bins this))) in
      if offset <? 0 then c <- cmp_bins_n f x this ;; Ok (- c)
      else
        z <- any_nonzero (Z.to_nat offset) 0 (bins x) ;;
        if z : bool then Ok (-1) else cmp_loop_n (size this) 0 offset (bins this) (bins x)
  end.
(** src/Int.cpp:377-391 *)
Definition cmp_n (fuel : nat) (this x : Int) : res Z :=
  bin_cmp <- cmp_bins_n fuel this x ;;
  z <- (if bin_cmp =? 0 then equals_int32 this 0 else Ok false) ;;
  if z : bool then Ok 0
  else if negative this && negative x then Ok (- bin_cmp)
  else if negb (negative this) && negb (negative x) then Ok bin_cmp
  else if negative this then Ok (-1)
  else Ok 1.

(** *** Printing -- src/Int.cpp:24-40: what is in the stream and how it ended *)
(** lines 29-30: the index at which the loop ends *)
Fixpoint skip_bins (n : nat) (i : Z) (l : list Z) : res Z :=
  match n with
  | O => Ok i
  | S n' => b <- from_back l i ;; if b =? 0 then skip_bins n' (i + 1) l else Ok i
  end.
(** lines 36-37 *)
Fixpoint print_rest (n : nat) (i : Z) (l : list Z) (o : ostream) : ostream * res unit :=
  match n with
  | O => (o, Ok tt)
  | S n' =>
      let o := setfill ZERO (setw BIN_WIDTH o) in
      match from_back l i with
      | Ok b => print_rest n' (i + 1) l (put o (dec_int32 b))
      | m => (o, _ <- m ;; UB)
      end
  end.
Definition Int_print_n (o : ostream) (x : Int) : ostream * res unit :=
  let o := if negative x then put o [MINUS] else o in
  match skip_bins (size x) 0 (bins x) with
  | Ok i =>
      if i =? zlen (bins x) then (put o (dec_int32 0), Ok tt)
      else match from_back (bins x) i with
           | Ok b => print_rest (size x - S (Z.to_nat i)) (i + 1) (bins x) (put o (dec_int32 b))
           | m => (o, _ <- m ;; UB)
           end
  | m => (o, _ <- m ;; UB)
  end.

(** *** Dividing -- src/Int.cpp:603-643: for (int32_t i = ((int32_t) bins.size()) - 1; ...) *)
Definition divide_n (fuel : nat) (this x : Int) : res Int :=
  z <- equals_int32 x 0 ;;
  if z : bool then Throw DivideByZero
  else
    c <- cmp_bins_n fuel this x ;;
    if c <? 0 then set_value 0
    else
      x_norm <- (if negative x then op_neg x else Ok x) ;;
      i <- int_ (narrow (zlen (bins this)) - 1) ;;
      bs <- div_loop (Z.to_nat (i + 1)) x_norm (bins this) Int_default Int_default ;;
      Ok (mkInt bs (xorb (negative this) (negative x))).

(** *** Frac(const string&) -- src/Frac.cpp:129-144: int j = x.find('/') *)
Fixpoint find_char (c : ascii) (s : chars) : option nat :=
  match s with
  | [] => None
  | d :: s' => if Ascii.eqb d c then Some O else match find_char c s' with Some k => Some (S k) | None => None end
  end.
Definition npos : Z := 2 ^ 64 - 1.
(** substr throws if its first argument exceeds the length *)
Definition substr_from (s : chars) (k : Z) : res chars := if k <=? zlen s then Ok (skipn (Z.to_nat k) s) else Throw OutOfRange.
Definition Frac_of_string_n (x : chars) : res Frac :=
  match x with
  | [] => Frac_default
  | _ =>
      let j := narrow (match find_char SLASH x with Some k => Z.of_nat k | None => npos end) in
      f <- (if j <? 0 then t <- Int_of_string_n x ;; b <- Int_of_int64 1 0 ;; Ok (mkFrac t b)
            else t <- Int_of_string_n (firstn (Z.to_nat j) x) ;;
                 j' <- int_ (j + 1) ;;
                 r <- substr_from x (size64 j') ;;
                 b <- Int_of_string_n r ;; Ok (mkFrac t b)) ;;
      z <- equals_int32 (bot f) 0 ;;
      if z : bool then Throw InvalidArgument else result (normalize f)
  end.
End Width.
