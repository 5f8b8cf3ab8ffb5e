(** Model of the stream part of class Int: src/Int.cpp:16-130, 307-321, and of
    the few std::istream / std::ostream / std::stringstream operations it uses.

    Simplifications:
    - a character is an 8-bit [ascii]; a stream's buffer is a list of them;
    - an istream has the characters still to be read, the ones already read
      (needed by unget) and the three state bits; its exception mask is the
      default one (no exceptions), the locale is "C", base is dec;
    - an ostream has the characters written so far, the field width and the
      fill character; alignment is the default (right), inserting never fails;
    - the library behaviour is that of C++11 (as in libstdc++):
      peek/get/unget construct a sentry, which sets failbit when the stream is
      not good; unget clears eofbit first. *)
From Coq Require Import Ascii String.
From Verif Require Import Base IntModel.

Definition chars := list ascii.

(** Character codes *)
Definition code (c : ascii) : Z := Z.of_N (N_of_ascii c).
Definition MINUS : ascii := "-"%char.
Definition ZERO : ascii := "0"%char.

(** isdigit -- src/common.hpp:50-52 (and ::isdigit in the "C" locale) *)
Definition isdigit (c : ascii) : bool := (48 <=? code c) && (code c <=? 57).
(** The value returned by peek() is EOF ([None]) or a character; EOF is no digit. *)
Definition isdigit_opt (c : option ascii) : bool :=
  match c with Some c => isdigit c | None => false end.
Definition is_char (c : option ascii) (d : ascii) : bool :=
  match c with Some c => Ascii.eqb c d | None => false end.

(** *** std::istream *)
Record istream := mkIn {
  rest : chars;        (* not yet extracted *)
  back : chars;        (* already extracted, most recent first *)
  eofbit : bool; failbit : bool; badbit : bool }.

Definition good (s : istream) : bool := negb (eofbit s || failbit s || badbit s).
(** fail(): failbit or badbit *)
Definition fail (s : istream) : bool := failbit s || badbit s.
Definition set_fail (s : istream) : istream := mkIn (rest s) (back s) (eofbit s) true (badbit s).
Definition clear_fail (s : istream) : istream := mkIn (rest s) (back s) (eofbit s) false (badbit s).
Definition set_eof (s : istream) : istream := mkIn (rest s) (back s) true (failbit s) (badbit s).
Definition clear_eof (s : istream) : istream := mkIn (rest s) (back s) false (failbit s) (badbit s).
Definition set_bad (s : istream) : istream := mkIn (rest s) (back s) (eofbit s) (failbit s) true.

(** istream::sentry(in, true) *)
Definition sentry (s : istream) : bool * istream :=
  if good s then (true, s) else (false, set_fail s).

(** istream::peek *)
Definition peek (s : istream) : option ascii * istream :=
  let '(ok, s) := sentry s in
  if ok : bool then
    match rest s with
    | c :: _ => (Some c, s)
    | [] => (None, set_eof s)
    end
  else (None, s).

(** istream::get() *)
Definition get (s : istream) : option ascii * istream :=
  let '(ok, s) := sentry s in
  if ok : bool then
    match rest s with
    | c :: r => (Some c, mkIn r (c :: back s) (eofbit s) (failbit s) (badbit s))
    | [] => (None, set_fail (set_eof s))
    end
  else (None, set_fail s).

(** istream::unget (C++11: eofbit is cleared first) *)
Definition unget (s : istream) : istream :=
  let '(ok, s) := sentry (clear_eof s) in
  if ok : bool then
    match back s with
    | c :: b => mkIn (c :: rest s) b (eofbit s) (failbit s) (badbit s)
    | [] => set_bad s
    end
  else s.

(** A stringstream holding the given text. *)
Definition istream_of (t : chars) : istream := mkIn t [] false false false.

(** *** Decimal insertion and extraction of machine integers *)
Definition digit_char (d : Z) : ascii := ascii_of_N (Z.to_N (48 + d)).
Definition digit_val (c : ascii) : Z := code c - 48.

(** Decimal digits of a non-negative int32; ten rounds suffice. *)
Fixpoint dec_aux (fuel : nat) (z : Z) : chars :=
  match fuel with
  | O => []
  | S f => if z <? 10 then [digit_char z] else dec_aux f (Z.quot z 10) ++ [digit_char (Z.rem z 10)]
  end.
Definition dec_int32 (z : Z) : chars :=
  if z <? 0 then MINUS :: dec_aux 10 (- z) else dec_aux 10 z.

(** *** std::ostream *)
Record ostream := mkOut { obuf : chars; owidth : Z; ofill : ascii }.

(** Formatted insertion of a text: padded on the left to the field width, which
    is then reset to 0. *)
Definition put (o : ostream) (t : chars) : ostream :=
  mkOut (obuf o ++ repeat (ofill o) (Z.to_nat (owidth o) - length t) ++ t) 0 (ofill o).
Definition setw (w : Z) (o : ostream) : ostream := mkOut (obuf o) w (ofill o).
Definition setfill (c : ascii) (o : ostream) : ostream := mkOut (obuf o) (owidth o) c.
Definition SPACE : ascii := " "%char.
Definition fresh_out : ostream := mkOut [] 0 SPACE.

(** Int::print -- src/Int.cpp:24-40. *)
(** the while loop 29-30, on the bins most significant first *)
Fixpoint skip_zero_bins (r : list Z) : list Z :=
  match r with
  | b :: r' => if b =? 0 then skip_zero_bins r' else r
  | [] => []
  end.
(** the for loop 36-37 *)
Fixpoint print_bins (o : ostream) (r : list Z) : ostream :=
  match r with
  | [] => o
  | b :: r' => print_bins (put (setfill ZERO (setw BIN_WIDTH o)) (dec_int32 b)) r'
  end.
Definition Int_print (o : ostream) (x : Int) : ostream :=
  let o := if negative x then put o [MINUS] else o in
  match skip_zero_bins (rev (bins x)) with
  | [] => put o (dec_int32 0)
  | b :: r => print_bins (put o (dec_int32 b)) r
  end.

(** The text printed on a fresh stream (std::stringstream ss; ss << x; ss.str()). *)
Definition Int_to_string (x : Int) : chars := obuf (Int_print fresh_out x).

(** parse_int -- src/Int.cpp:50-62. The stringstream argument is the list of
    characters still in it. [take_digits] is the while loop 53-56. *)
Fixpoint take_digits (n : nat) (ss : chars) : chars * chars :=
  match n, ss with
  | S n', c :: ss' => if isdigit c then let '(d, r) := take_digits n' ss' in (c :: d, r) else ([], ss)
  | _, _ => ([], ss)
  end.
(** s_num >> val: decimal value; no digit or a value above INT_MAX sets failbit. *)
Definition extract_int32 (d : chars) : res Z :=
  match d with
  | [] => Throw InvalidArgument
  | _ => let v := fold_left (fun a c => 10 * a + digit_val c) d 0 in
         if v <=? INT32_MAX then Ok v else Throw InvalidArgument
  end.
Definition parse_int (ss : chars) (max_digits : Z) : res (Z * chars) :=
  let '(d, r) := take_digits (Z.to_nat max_digits) ss in
  v <- extract_int32 d ;; Ok (v, r).

(** while (in.peek() == '0') in.get(); -- src/Int.cpp:97-99 *)
Fixpoint skip_zeros (fuel : nat) (s : istream) : res istream :=
  match fuel with
  | O => OutOfFuel
  | S f =>
      let '(c, s) := peek s in
      if is_char c ZERO then skip_zeros f (snd (get s)) else Ok s
  end.

(** while (isdigit(in.peek())) digit_ss << (char) in.get(); -- src/Int.cpp:102-104 *)
Fixpoint read_digits (fuel : nat) (s : istream) (acc : chars) : res (istream * chars) :=
  match fuel with
  | O => OutOfFuel
  | S f =>
      let '(c, s) := peek s in
      if isdigit_opt c then
        match get s with
        | (Some c, s) => read_digits f s (acc ++ [c])
        | (None, s) => read_digits f s acc
        end
      else Ok (s, acc)
  end.

(** while (count < num_digits) {...} -- src/Int.cpp:119-123 *)
Fixpoint read_bins (fuel : nat) (ss : chars) (count num_digits : Z) (bs : list Z) : res (list Z) :=
  match fuel with
  | O => OutOfFuel
  | S f =>
      if count <? num_digits then
        '(n, ss) <- parse_int ss BIN_WIDTH ;;
        read_bins f ss (count + BIN_WIDTH) num_digits (n :: bs)
      else Ok bs
  end.

(** The part of Int::read after the sign -- src/Int.cpp:95-126. [neg] is the
    sign flag just stored; bins have been cleared. *)
Definition read_magnitude (s : istream) (neg : bool) : res (istream * Int) :=
  let fuel := S (length (rest s)) in
  s <- skip_zeros fuel s ;;
  '(s, ds) <- read_digits fuel s [] ;;
  let num_digits := Z.of_nat (length ds) in
  if num_digits =? 0 then
    x <- set_value 0 ;; Ok (clear_fail s, x)
  else
    let k := Z.rem num_digits BIN_WIDTH in
    '(bs, ss, count) <- (if k >? 0 then '(n, ss) <- parse_int ds k ;; Ok ([n], ss, k)
                         else Ok ([], ds, 0)) ;;
    bs <- read_bins (S (length ds)) ss count num_digits bs ;;
    Ok (s, mkInt bs neg).

(** Int::read -- src/Int.cpp:73-127, operator>> -- 20-22. Returns the stream and
    the new value of *this (unchanged when extraction fails). *)
Definition Int_read (s : istream) (this : Int) : res (istream * Int) :=
  let '(ok, s) := sentry s in
  if negb ok then Ok (s, this)
  else
    let '(c, s) := peek s in
    if is_char c MINUS then
      let s := snd (get s) in
      let '(d, s) := peek s in
      if isdigit_opt d then read_magnitude s true
      else Ok (set_fail (unget s), this)
    else
      let '(d, s) := peek s in
      if isdigit_opt d then read_magnitude s false
      else Ok (set_fail s, this).

(** Int::Int(const std::string&) -- src/Int.cpp:313-320. bins start empty. *)
Definition Int_of_string (t : chars) : res Int :=
  '(s, x) <- Int_read (istream_of t) (mkInt [] false) ;;
  if fail s || negb (eofbit s) then Throw InvalidArgument else Ok x.
