(** Insertion of a double into a stream whose floating-point flags are not the default
    ones: fixed, scientific, hexfloat, precision, showpoint, showpos, uppercase,
    alignment, width and fill, as libstdc++ (num_put, by way of printf's %f, %e, %g and
    %a) and glibc do. Used by operator<< of Vec<double> (src/Vec.hpp:114-124) and
    Mat<double> (src/Mat.hpp:96-105), which leave the flags alone, and by
    Frac::from_double (src/Frac.cpp:72-98), which sets fixed and the precision. *)
From Coq Require Import Ascii String SpecFloat.
From Verif Require Import Base IntModel IOModel FlagsModel FracModel ElemModel VecModel MatModel PieceModel DoubleModel.
Local Open Scope list_scope.
Local Open Scope Z_scope.

Inductive float_field := General | Fixed | Scientific | Hexfloat.
Record float_flags := mkFloat { field : float_field; precision : Z; showpoint : bool }.
(** a negative precision counts as 6 *)
Definition digits_asked (ff : float_flags) : Z := stream_precision (precision ff).

(** the point and the digits after it *)
Definition with_digits (point : bool) (f : chars) : chars :=
  match f with [] => if point then [DOT] else [] | _ => DOT :: f end.
Definition exponent_letter (upper : bool) (x : Z) : chars :=
  (if upper then "E"%char else "e"%char) :: (if x <? 0 then MINUS else "+"%char) :: pad_zeros 2 (dec_nonneg (Z.abs x)).
(** m * 2^e rounded to P significant digits: these digits, and the exponent of the first *)
Definition significant (m e P : Z) : Z * Z :=
  let x := decade m e in
  let n := scaled10 m e (P - 1 - x) in
  if n =? 10 ^ P then (10 ^ (P - 1), x + 1) else (n, x).
(** %e of the digits c s, %g of the digits s *)
Definition scientific (upper point : bool) (s : chars) (x : Z) : chars :=
  firstn 1 s ++ with_digits point (skipn 1 s) ++ exponent_letter upper x.
Definition drop_unless (keep : bool) (f : chars) : chars := if keep then f else strip_zeros f.
Definition general (upper point : bool) (P : Z) (s : chars) (x : Z) : chars :=
  if (x <? -4) || (P <=? x) then
    firstn 1 s ++ with_digits point (drop_unless point (skipn 1 s)) ++ exponent_letter upper x
  else if 0 <=? x then
    firstn (Z.to_nat (x + 1)) s ++ with_digits point (drop_unless point (skipn (Z.to_nat (x + 1)) s))
  else ZERO :: with_digits point (drop_unless point (repeat ZERO (Z.to_nat (- x - 1)) ++ s)).
(** thirteen hexadecimal digits *)
Fixpoint hex_digits (n : nat) (upper : bool) (z : Z) : chars :=
  match n with
  | O => []
  | S n' => hex_digits n' upper (z / 16) ++ [digit_in upper (z mod 16)]
  end.
Definition hex_exponent (upper : bool) (x : Z) : chars :=
  (if upper then "P"%char else "p"%char) :: (if x <? 0 then MINUS else "+"%char) :: dec_nonneg (Z.abs x).
Definition hexfloat (upper point : bool) (m e : Z) : chars :=
  [ZERO; if upper then "X"%char else "x"%char; digit_char (m / 2 ^ 52)] ++
  with_digits point (strip_zeros (hex_digits 13 upper (m mod 2 ^ 52))) ++ hex_exponent upper (e + 52).
Definition magnitude (ff : float_flags) (upper : bool) (m e : Z) : chars :=
  let p := digits_asked ff in let pt := showpoint ff in
  match field ff with
  | Fixed => fixed_magnitude (scaled m e p) p ++ (if pt && (p =? 0) then [DOT] else [])
  | Scientific => let '(n, x) := significant m e (p + 1) in scientific upper pt (dec_nonneg n) x
  | General => let P := if p =? 0 then 1 else p in
               let '(n, x) := significant m e P in general upper pt P (dec_nonneg n) x
  | Hexfloat => hexfloat upper pt m e
  end.
Definition zero_magnitude (ff : float_flags) (upper : bool) : chars :=
  let p := digits_asked ff in let pt := showpoint ff in
  match field ff with
  | Fixed => fixed_magnitude 0 p ++ (if pt && (p =? 0) then [DOT] else [])
  | Scientific => scientific upper pt (repeat ZERO (Z.to_nat (p + 1))) 0
  | General => let P := if p =? 0 then 1 else p in general upper pt P (repeat ZERO (Z.to_nat P)) 0
  | Hexfloat => [ZERO; if upper then "X"%char else "x"%char; ZERO] ++ with_digits pt [] ++ hex_exponent upper 0
  end.
(** the text before padding *)
Definition sign_of (fl : flags) (s : bool) : chars := if s then [MINUS] else if showpos fl then ["+"%char] else [].
Definition float_text (fl : flags) (ff : float_flags) (d : spec_float) : chars :=
  match d with
  | S754_zero s => sign_of fl s ++ zero_magnitude ff (uppercase fl)
  | S754_infinity s => sign_of fl s ++ list_ascii_of_string (if uppercase fl then "INF" else "inf")
  | S754_nan => sign_of fl false ++ list_ascii_of_string (if uppercase fl then "NAN" else "nan")
  | S754_finite s m e => sign_of fl s ++ magnitude ff (uppercase fl) (Zpos m) e
  end.
(** internal padding goes after 0x or else a sign *)
Definition inner_length (t : chars) : nat :=
  match t with
  | a :: r => if Ascii.eqb a ZERO then match r with b :: _ => if Ascii.eqb b "x"%char || Ascii.eqb b "X"%char then 2 else 0 | [] => 0 end
              else if Ascii.eqb a MINUS || Ascii.eqb a "+"%char then 1 else 0
  | [] => 0
  end.
Definition float_insert (fl : flags) (ff : float_flags) (o : ostream) (d : spec_float) : ostream :=
  let t := float_text fl ff d in
  let pad := repeat (ofill o) (Z.to_nat (owidth o) - length t) in
  mkOut (obuf o ++ match adjust fl with
                   | Left => t ++ pad
                   | Internal => firstn (inner_length t) t ++ pad ++ skipn (inner_length t) t
                   | Right => pad ++ t
                   end) 0 (ofill o).

(** ss.precision(p); ss << fixed << x on a new stream *)
Definition fixed_stream (x : spec_float) (p : Z) : chars :=
  obuf (float_insert (mkFlags Dec Right false false false) (mkFloat Fixed p false) (mkOut [] 0 " "%char) x).

(** operator<< of Vec<double> and Mat<double>: the insertions in the order they are made *)
Fixpoint insert_elements (fl : flags) (ff : float_flags) (o : ostream) (x : list spec_float) : ostream :=
  match x with
  | [] => o
  | [d] => float_insert fl ff o d
  | d :: x' => insert_elements fl ff (put_str fl (float_insert fl ff o d) [","%char; " "%char]) x'
  end.
Definition vec_insert (fl : flags) (ff : float_flags) (o : ostream) (x : list spec_float) : ostream :=
  put_str fl (insert_elements fl ff (put_str fl o ["("%char]) x) [")"%char].
Definition row_insert (fl : flags) (ff : float_flags) (c : nat) (g : nat -> spec_float) (o : ostream) : ostream :=
  fold_left (fun o j => put_str fl (float_insert fl ff o (g j)) [" "%char]) (seq 0 c) o.
Definition mat_insert (fl : flags) (ff : float_flags) (r c : nat) (g : nat -> nat -> spec_float) (o : ostream) : ostream :=
  fold_left (fun o i => let o := row_insert fl ff c (g i) o in
                        if (i <? r - 1)%nat then mkOut (obuf o ++ [NEWLINE]) (owidth o) (ofill o) else o) (seq 0 r) o.
