(** Model of Int::print (src/Int.cpp:24-40) on a stream whose formatting flags are not
    the default ones. [IOModel] has the width and the fill character; here are the
    base (dec, oct, hex), the alignment (left, right, internal), showpos, showbase and
    uppercase, which print() never changes. Insertion of an int32_t and of a char as in
    libstdc++ (num_put and __ostream_insert). *)
From Coq Require Import Ascii String.
From Verif Require Import Base IntModel IOModel.

Inductive base_flag := Dec | Oct | Hex.
Inductive adjust_flag := Right | Left | Internal.
Record flags := mkFlags { base : base_flag; adjust : adjust_flag; showpos : bool; showbase : bool; uppercase : bool }.

Definition digit_in (upper : bool) (d : Z) : ascii :=
  if d <? 10 then digit_char d else ascii_of_N (Z.to_N ((if upper then 55 else 87) + d)).
(** the digits of an unsigned int; 11 rounds suffice for base 8 *)
Fixpoint to_base (fuel : nat) (b : Z) (upper : bool) (n : Z) : chars :=
  match fuel with
  | O => []
  | S f => if n <? b then [digit_in upper n] else to_base f b upper (n / b) ++ [digit_in upper (n mod b)]
  end.
(** an int: sign or prefix, and digits. Negative numbers are converted to unsigned for
    oct and hex; showpos has an effect in base 10 only, showbase in the others *)
Definition int_prefix (fl : flags) (z : Z) : chars :=
  match base fl with
  | Dec => if z <? 0 then [MINUS] else if showpos fl then ["+"%char] else []
  | Oct => if showbase fl && negb (z =? 0) then [ZERO] else []
  | Hex => if showbase fl && negb (z =? 0) then [ZERO; if uppercase fl then "X"%char else "x"%char] else []
  end.
Definition int_digits (fl : flags) (z : Z) : chars :=
  match base fl with
  | Dec => dec_aux 10 (Z.abs z)
  | Oct => to_base 11 8 false (z mod 2 ^ 32)
  | Hex => to_base 11 16 (uppercase fl) (z mod 2 ^ 32)
  end.
(** out << z. The padding goes after a sign or 0x if the alignment is internal (an
    octal prefix is not set apart). *)
Definition put_int (fl : flags) (o : ostream) (z : Z) : ostream :=
  let p := int_prefix fl z in let d := int_digits fl z in
  let pad := repeat (ofill o) (Z.to_nat (owidth o) - length (p ++ d)) in
  mkOut (obuf o ++ match adjust fl with
                   | Left => p ++ d ++ pad
                   | Internal => match base fl with Oct => pad ++ p ++ d | _ => p ++ pad ++ d end
                   | Right => pad ++ p ++ d
                   end) 0 (ofill o).
(** out << c for a char *)
Definition put_char (fl : flags) (o : ostream) (c : ascii) : ostream :=
  let pad := repeat (ofill o) (Z.to_nat (owidth o) - 1) in
  mkOut (obuf o ++ match adjust fl with Left => c :: pad | _ => pad ++ [c] end) 0 (ofill o).

(** Int::print -- src/Int.cpp:24-40 *)
Fixpoint put_bins (fl : flags) (o : ostream) (r : list Z) : ostream :=
  match r with
  | [] => o
  | b :: r' => put_bins fl (put_int fl (setfill ZERO (setw BIN_WIDTH o)) b) r'
  end.
Definition Int_insert (fl : flags) (o : ostream) (x : Int) : ostream :=
  let o := if negative x then put_char fl o MINUS else o in
  match skip_zero_bins (rev (bins x)) with
  | [] => put_int fl o 0
  | b :: r => put_bins fl (put_int fl o b) r
  end.
