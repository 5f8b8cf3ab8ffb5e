(** Model of class Frac: src/Frac.hpp and src/Frac.cpp.

    A Frac operation that works in place returns the final object together with
    the outcome, so that what an exception leaves behind is visible. The
    right-hand operand of an in-place operator is an [option]: [None] is the
    very same object. Debug output (DEBUG_FRAC = false) is omitted. *)
From Coq Require Import Ascii String.
From Coq Require Import SpecFloat.
From Verif Require Import Base IntModel IOModel.
Local Open Scope list_scope.

(** src/Frac.hpp:79 *)
Record Frac := mkFrac { top : Int; bot : Int }.

(** nochecks_gcd -- src/Frac.cpp:110-124. The loop variables are copies; [fuel]
    bounds the number of rounds. *)
Fixpoint gcd_loop (fuel : nat) (a b : Int) : res Int :=
  match fuel with
  | O => OutOfFuel
  | S f =>
      z <- equals_int32 b 0 ;;
      if z : bool then Ok a
      else r <- op_mod a b ;; gcd_loop f b r
  end.
(** Euclid needs at most two rounds per binary digit of the smaller number. *)
Definition gcd_fuel (y : Int) : nat := (64 * size y + 64)%nat.
Definition nochecks_gcd (x y : Int) : res Int := gcd_loop (gcd_fuel y) x y.

(** Frac::GCD -- src/Frac.cpp:100-108 *)
Definition GCD (x y : Int) : res Int :=
  absx <- abs_Int x ;;
  absy <- abs_Int y ;;
  lt <- op_lt absx absy ;;
  if lt : bool then nochecks_gcd absy absx else nochecks_gcd absx absy.

(** Sequencing of statements that modify a Frac in place. *)
Definition fst_res := (Frac * res unit)%type.
Definition fthen (p : fst_res) (k : Frac -> fst_res) : fst_res :=
  match p with
  | (f, Ok _) => k f
  | _ => p
  end.
Definition fail_with {A} (f : Frac) (m : res A) : fst_res :=
  match m with
  | Ok _ => (f, Ok tt)
  | Throw e => (f, Throw e)
  | Abort => (f, Abort)
  | UB => (f, UB)
  | OutOfFuel => (f, OutOfFuel)
  end.
(** x.tt <- m and x.bb <- m : on failure the member keeps its old value (see
    [in_place] in IntModel.v) *)
Definition set_top (f : Frac) (m : res Int) : fst_res :=
  match m with Ok t => (mkFrac t (bot f), Ok tt) | _ => fail_with f m end.
Definition set_bot (f : Frac) (m : res Int) : fst_res :=
  match m with Ok b => (mkFrac (top f) b, Ok tt) | _ => fail_with f m end.
(** The value a Frac object has after running statements on it, or the failure
    (for constructors, where a failure leaves no object). *)
Definition result (p : fst_res) : res Frac := _ <- snd p ;; Ok (fst p).

(** Frac::normalize -- src/Frac.cpp:146-157 *)
Definition normalize (f : Frac) : fst_res :=
  fthen (if is_negative (bot f)
         then fthen (set_bot f (negate (bot f))) (fun f => set_top f (negate (top f)))
         else (f, Ok tt)) (fun f =>
  match GCD (top f) (bot f) with
  | Ok c => fthen (set_top f (div_assign (top f) (Some c))) (fun f => set_bot f (div_assign (bot f) (Some c)))
  | m => fail_with f m
  end).

(** Constructors -- src/Frac.hpp:20-33 *)
Definition Frac_default : res Frac := t <- Int_of_int64 0 0 ;; b <- Int_of_int64 1 0 ;; Ok (mkFrac t b).
Definition Frac_of_int (x : Z) : res Frac := t <- Int_of_int64 x 0 ;; b <- Int_of_int64 1 0 ;; Ok (mkFrac t b).
Definition Frac_of_Int (x : Int) : res Frac := b <- Int_of_int64 1 0 ;; Ok (mkFrac x b).
Definition Frac_make (t b : Int) : res Frac :=
  z <- equals_int32 b 0 ;;
  if z : bool then Throw DivideByZero else result (normalize (mkFrac t b)).

(** Frac::Frac(const string&) -- src/Frac.cpp:126-144; x.find('/') *)
Definition SLASH : ascii := "/"%char.
Fixpoint find_slash (s : chars) : option (chars * chars) :=
  match s with
  | [] => None
  | c :: s' => if Ascii.eqb c SLASH then Some ([], s')
               else match find_slash s' with Some (a, b) => Some (c :: a, b) | None => None end
  end.
Definition Frac_of_string (x : chars) : res Frac :=
  match x with
  | [] => Frac_default
  | _ =>
      f <- match find_slash x with
           | None => t <- Int_of_string x ;; b <- Int_of_int64 1 0 ;; Ok (mkFrac t b)
           | Some (l, r) => t <- Int_of_string l ;; b <- Int_of_string r ;; Ok (mkFrac t b)
           end ;;
      z <- equals_int32 (bot f) 0 ;;
      if z : bool then Throw InvalidArgument else result (normalize f)
  end.

(** reciprocal -- src/Frac.hpp:38 *)
Definition reciprocal (f : Frac) : res Frac := Frac_make (bot f) (top f).

(** Comparisons -- src/Frac.hpp:40-45 *)
Definition F_eq (x y : Frac) : res bool :=
  a <- op_eq (top x) (top y) ;; if a : bool then op_eq (bot x) (bot y) else Ok false.
Definition F_ne (x y : Frac) : res bool := e <- F_eq x y ;; Ok (negb e).
Definition F_lt (x y : Frac) : res bool :=
  a <- op_mul (top x) (bot y) ;; b <- op_mul (top y) (bot x) ;; op_lt a b.
Definition F_gt (x y : Frac) : res bool := F_lt y x.
Definition F_le (x y : Frac) : res bool := l <- F_lt y x ;; Ok (negb l).
Definition F_ge (x y : Frac) : res bool := l <- F_lt x y ;; Ok (negb l).

(** Frac op Frac -- src/Frac.hpp:47-50 *)
Definition F_add (x y : Frac) : res Frac :=
  a <- op_mul (top x) (bot y) ;; b <- op_mul (top y) (bot x) ;; t <- op_add a b ;;
  d <- op_mul (bot x) (bot y) ;; Frac_make t d.
Definition F_sub (x y : Frac) : res Frac :=
  a <- op_mul (top x) (bot y) ;; b <- op_mul (top y) (bot x) ;; t <- op_sub a b ;;
  d <- op_mul (bot x) (bot y) ;; Frac_make t d.
Definition F_mul (x y : Frac) : res Frac :=
  t <- op_mul (top x) (top y) ;; d <- op_mul (bot x) (bot y) ;; Frac_make t d.
Definition F_div (x y : Frac) : res Frac :=
  t <- op_mul (top x) (bot y) ;; d <- op_mul (bot x) (top y) ;; Frac_make t d.

(** Int op Frac -- src/Frac.hpp:52-55 *)
Definition IF_add (a : Int) (x : Frac) : res Frac :=
  p <- op_mul a (bot x) ;; t <- op_add p (top x) ;; Frac_make t (bot x).
Definition IF_sub (a : Int) (x : Frac) : res Frac :=
  p <- op_mul a (bot x) ;; t <- op_sub p (top x) ;; Frac_make t (bot x).
Definition IF_mul (a : Int) (x : Frac) : res Frac := t <- op_mul a (top x) ;; Frac_make t (bot x).
Definition IF_div (a : Int) (x : Frac) : res Frac := t <- op_mul a (bot x) ;; Frac_make t (top x).

(** Frac op Int -- src/Frac.hpp:57-60 *)
Definition FI_add (x : Frac) (a : Int) : res Frac :=
  p <- op_mul a (bot x) ;; t <- op_add (top x) p ;; Frac_make t (bot x).
Definition FI_sub (x : Frac) (a : Int) : res Frac :=
  p <- op_mul a (bot x) ;; t <- op_sub (top x) p ;; Frac_make t (bot x).
Definition FI_mul (x : Frac) (a : Int) : res Frac := t <- op_mul a (top x) ;; Frac_make t (bot x).
Definition FI_div (x : Frac) (a : Int) : res Frac := d <- op_mul (bot x) a ;; Frac_make (top x) d.

(** operator^ -- src/Frac.cpp:184-191 *)
Definition F_pow (x : Frac) (a : Int) : res Frac :=
  if is_negative a then
    na <- op_neg a ;; t <- op_pow (bot x) na ;; b <- op_pow (top x) na ;; Frac_make t b
  else t <- op_pow (top x) a ;; b <- op_pow (bot x) a ;; Frac_make t b.

(** Frac op= Frac -- src/Frac.cpp:159-182. [bot_of x y] is the object y.bb as an
    operand of a compound assignment to x.bb: the same object when y is x. *)
Definition bot_of (y : option Frac) : option Int := match y with None => None | Some g => Some (bot g) end.
Definition top_of (y : option Frac) : option Int := match y with None => None | Some g => Some (top g) end.
Definition F_addsub_assign (op : Int -> Int -> res Int) (x : Frac) (y : option Frac) : fst_res :=
  let g := rd x y in
  fthen (set_top x (a <- op_mul (top x) (bot g) ;; b <- op_mul (top g) (bot x) ;; op a b)) (fun x =>
  fthen (set_bot x (mul_assign (bot x) (bot_of y))) normalize).
Definition F_add_assign := F_addsub_assign op_add.
Definition F_sub_assign := F_addsub_assign op_sub.
Definition F_mul_assign (x : Frac) (y : option Frac) : fst_res :=
  fthen (set_top x (mul_assign (top x) (top_of y))) (fun x =>
  fthen (set_bot x (mul_assign (bot x) (bot_of y))) normalize).
Definition F_div_assign (x : Frac) (y : option Frac) : fst_res :=
  let tmp := top (rd x y) in
  fthen (set_top x (mul_assign (top x) (Some (bot (rd x y))))) (fun x =>
  fthen (set_bot x (mul_assign (bot x) (Some tmp))) normalize).

(** Frac op= Int -- src/Frac.cpp:193-223. The Int cannot be a (private) member
    of the Frac, so it is never the same object. *)
Definition FI_add_assign (x : Frac) (a : Int) : fst_res :=
  fthen (set_top x (p <- op_mul (bot x) a ;; add_assign (top x) (Some p))) normalize.
Definition FI_sub_assign (x : Frac) (a : Int) : fst_res :=
  fthen (set_top x (p <- op_mul (bot x) a ;; sub_assign (top x) (Some p))) normalize.
Definition FI_mul_assign (x : Frac) (a : Int) : fst_res :=
  fthen (set_top x (mul_assign (top x) (Some a))) normalize.
Definition FI_div_assign (x : Frac) (a : Int) : fst_res :=
  fthen (set_bot x (mul_assign (bot x) (Some a))) normalize.
Definition F_pow_assign (x : Frac) (a : Int) : fst_res :=
  match (if is_negative a then op_neg a else Ok a) with
  | Ok e => fthen (set_bot x (pow_assign (bot x) (Some e))) (fun x =>
            fthen (set_top x (pow_assign (top x) (Some e))) normalize)
  | m => fail_with x m
  end.

(** Frac::print -- src/Frac.cpp:11-14 *)
Definition LPAR : ascii := "("%char.
Definition RPAR : ascii := ")"%char.
Definition Frac_print (o : ostream) (f : Frac) : ostream :=
  put (Int_print (put (Int_print (put o [LPAR]) (top f)) [SLASH]) (bot f)) [RPAR].
Definition Frac_to_string (f : Frac) : chars := obuf (Frac_print fresh_out f).

(** Frac::read -- src/Frac.cpp:16-60, operator>> -- 7-9. The stream, the final
    object, and how the call ended (normalize may throw or abort). *)
Definition Frac_read (s : istream) (this : Frac) : istream * fst_res :=
  let '(ok, s) := sentry s in
  if negb ok then (s, (this, Ok tt))
  else
    let '(c, s) := peek s in
    let parens := is_char c LPAR in
    let s := if parens then snd (get s) else s in
    match Int_read s (top this) with
    | Ok (s, t) =>
        let f := mkFrac t (bot this) in
        let step : istream * bool * fst_res :=
          if negb (fail s) then
            let '(c, s) := peek s in
            if is_char c SLASH then
              let s := snd (get s) in
              match Int_read s (bot f) with
              | Ok (s, b) => (s, negb (fail s), (mkFrac (top f) b, Ok tt))
              | m => (s, false, fail_with f m)
              end
            else (s, true, set_bot f (set_value 1))
          else ((if parens then unget s else s), false, (f, Ok tt)) in
        let '(s, success, p) := step in
        let '(s, close) := (if success && parens then let '(c, s) := peek s in (s, is_char c RPAR) else (s, false)) in
        let s := if close then snd (get s) else s in
        let s := if success then clear_fail s else s in
        (s, fthen p normalize)
    | m => (s, fail_with this m)
    end.

(** *** Frac::from_double -- src/Frac.cpp:63-98 *)
(** Decimal digits of a non-negative integer (used by the library to format the
    fixed-point notation). *)
Fixpoint dec_Z (fuel : nat) (z : Z) : chars :=
  match fuel with
  | O => []
  | S f => if z <? 10 then [digit_char z] else dec_Z f (z / 10) ++ [digit_char (z mod 10)]
  end.
Definition dec_nonneg (z : Z) : chars := dec_Z (S (Z.to_nat (Z.log2 z))) z.
(** n / d rounded to the nearest integer, ties to even (d > 0, n >= 0). *)
Definition round_half_even (n d : Z) : Z :=
  let q := n / d in let r := n mod d in
  if 2 * r <? d then q else if d <? 2 * r then q + 1 else if Z.even q then q else q + 1.
(** |x| * 10^p, rounded to the nearest integer, for x = m * 2^e *)
Definition scaled (m e p : Z) : Z :=
  if 0 <=? e then m * 2 ^ e * 10 ^ p else round_half_even (m * 10 ^ p) (2 ^ (- e)).
(** ss.precision(p); ss << fixed << x (correctly rounded, as glibc does): digits
    before the point (at least one), and if p > 0 a point and p digits. *)
Definition pad_zeros (n : nat) (s : chars) : chars := repeat ZERO (n - length s) ++ s.
Definition DOT : ascii := "."%char.
Definition fixed_magnitude (n p : Z) : chars :=
  let s := pad_zeros (S (Z.to_nat p)) (dec_nonneg n) in
  let k := (length s - Z.to_nat p)%nat in
  if p =? 0 then s else firstn k s ++ [DOT] ++ skipn k s.
Definition fixed_text (x : spec_float) (p : Z) : chars :=
  match x with
  | S754_zero s => (if s then [MINUS] else []) ++ fixed_magnitude 0 p
  | S754_infinity s => (if s then [MINUS] else []) ++ list_ascii_of_string "inf"
  | S754_nan => list_ascii_of_string "nan"
  | S754_finite s m e => (if s then [MINUS] else []) ++ fixed_magnitude (scaled (Zpos m) e p) p
  end.
(** isFinite -- src/common.cpp:3-7 *)
Definition isFinite (x : spec_float) : bool :=
  SFeqb x x && negb (SFeqb x (S754_infinity false)) && negb (SFeqb x (S754_infinity true)).
(** sx.find('.') splits the text *)
Fixpoint find_dot (s : chars) : option (chars * chars) :=
  match s with
  | [] => None
  | c :: s' => if Ascii.eqb c DOT then Some ([], s')
               else match find_dot s' with Some (a, b) => Some (c :: a, b) | None => None end
  end.
(** a negative precision counts as 6 when the number is inserted (libstdc++) *)
Definition stream_precision (p : Z) : Z := if p <? 0 then 6 else p.
(** Without a '.', k is npos: sx.erase(sx.begin() + npos) is undefined. *)
Definition from_double (x : spec_float) (p : Z) : res Frac :=
  let sx := fixed_text x (stream_precision p) in
  if negb (isFinite x) then Throw InvalidArgument
  else
    match find_dot sx with
    | None => UB
    | Some (l, r) =>
        let num_frac_digits := 1 + Z.of_nat (length r) in
        t <- Int_of_string (l ++ r) ;;
        b <- Int_of_int64 1 0 ;;
        b <- times_power_ten b (num_frac_digits - 1) ;;
        Frac_make t b
    end.
