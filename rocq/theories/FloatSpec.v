(** What a double looks like under given floating-point flags. *)
From Coq Require Import Ascii String QArith SpecFloat.
From Verif Require Import Base FracSpec IOModel IOSpec FlagsModel FlagsSpec FormatSpec FloatModel.
Local Open Scope list_scope.
Local Open Scope Z_scope.

(** q is x rounded to P significant digits, to nearest, ties to even (x > 0) *)
Definition sig_digits (P : Z) (x q : Q) : Prop := exists k n,
  (ten k <= x < ten (k + 1))%Q /\ nearest_even (x * ten (P - 1 - k)) n /\ (q == inject_Z n * ten (k - (P - 1)))%Q.
(** digits after the point; the point alone only if asked for *)
Definition point_digits (pt : bool) (f : list ascii) : list ascii :=
  match f with [] => if pt then ["."%char] else [] | _ => "."%char :: f end.
(** g is f, or f without the zeros at its end *)
Definition shortened (keep : bool) (f g : list ascii) : Prop :=
  if keep then g = f else exists j, f = g ++ repeat "0"%char j /\ no_zero_end g.
(** i.f with k digits after the point *)
Inductive fixed_notation (pt keep : bool) (k : Z) : list ascii -> Q -> Prop :=
| fixed_notation_ i a f g n q : canonical_text i a -> 0 <= a -> numeral (i ++ f) n -> Z.of_nat (length f) = k -> shortened keep f g ->
    (q == inject_Z n * ten (- k))%Q -> fixed_notation pt keep k (i ++ point_digits pt g) q.
(** c.fe+x, c.fe-x with k digits after the point *)
Inductive exponent_notation (up pt keep : bool) (k : Z) : list ascii -> Q -> Z -> Prop :=
| exponent_notation_ c f g n e x q : numeral (c :: f) n -> c <> "0"%char -> Z.of_nat (length f) = k -> shortened keep f g -> exponent_digits e (Z.abs x) ->
    (q == inject_Z n * ten (x - k))%Q ->
    exponent_notation up pt keep k (c :: point_digits pt g ++ (if up then "E"%char else "e"%char) :: (if x <? 0 then "-"%char else "+"%char) :: e) q x.
(** base 16, leading zeros allowed *)
Inductive hex_numeral (up : bool) : list ascii -> Z -> Prop :=
| hex_nil : hex_numeral up [] 0
| hex_snoc t n c d : hex_numeral up t n -> base_digit 16 up c d -> hex_numeral up (t ++ [c]) (16 * n + d).
(** 0x1.fp+x, and 0x0.fp-1022 for the numbers below 2^-1022 *)
Inductive hex_notation (up pt : bool) : list ascii -> Q -> Prop :=
| hex_notation_ c f n x e q : hex_numeral up (c :: f) n -> c = "1"%char /\ -1022 <= x \/ c = "0"%char /\ x = -1022 -> no_zero_end f ->
    canonical_text e (Z.abs x) -> (q == inject_Z n * (2 # 1) ^ (x - 4 * Z.of_nat (length f)))%Q ->
    hex_notation up pt ("0"%char :: (if up then "X"%char else "x"%char) :: c :: point_digits pt f ++
                        (if up then "P"%char else "p"%char) :: (if x <? 0 then "-"%char else "+"%char) :: e) q.

(** the text of x > 0, without sign *)
Definition positive_with (ff : float_flags) (up : bool) (x : Q) (t : list ascii) : Prop :=
  let p := if precision ff <? 0 then 6 else precision ff in
  match field ff with
  | Fixed => exists n, nearest_even (x * ten p) n /\ fixed_notation (showpoint ff) true p t (inject_Z n * ten (- p))
  | Scientific => exists q e, sig_digits (p + 1) x q /\ exponent_notation up (showpoint ff) true p t q e
  | General => let P := Z.max 1 p in exists q e, sig_digits P x q /\ (ten e <= q < ten (e + 1))%Q /\
      if (-4 <=? e) && (e <? P) then fixed_notation (showpoint ff) (showpoint ff) (P - 1 - e) t q
      else exponent_notation up (showpoint ff) (showpoint ff) (P - 1) t q e
  | Hexfloat => hex_notation up (showpoint ff) t x
  end.
Definition zero_with (ff : float_flags) (up : bool) : list ascii :=
  let p := if precision ff <? 0 then 6 else precision ff in let pt := showpoint ff in
  match field ff with
  | Fixed => "0"%char :: point_digits pt (repeat "0"%char (Z.to_nat p))
  | Scientific => "0"%char :: point_digits pt (repeat "0"%char (Z.to_nat p)) ++ list_ascii_of_string (if up then "E+00" else "e+00")
  | General => "0"%char :: if pt then "."%char :: repeat "0"%char (Z.to_nat (Z.max 1 p - 1)) else []
  | Hexfloat => list_ascii_of_string (if up then "0X0" else "0x0") ++ (if pt then ["."%char] else []) ++ list_ascii_of_string (if up then "P+0" else "p+0")
  end.
Definition unsigned_with (ff : float_flags) (up : bool) (d : spec_float) (t : list ascii) : Prop :=
  match d with
  | S754_nan => t = list_ascii_of_string (if up then "NAN" else "nan")
  | S754_infinity _ => t = list_ascii_of_string (if up then "INF" else "inf")
  | S754_zero _ => t = zero_with ff up
  | S754_finite _ m e => positive_with ff up (dval (S754_finite false m e)) t
  end.
Definition negative_float (d : spec_float) : bool := match d with S754_nan => false | S754_infinity s | S754_zero s | S754_finite s _ _ => s end.
Definition float_sign (fl : flags) (d : spec_float) : list ascii :=
  if negative_float d then ["-"%char] else if showpos fl then ["+"%char] else [].
(** t is the text of d *)
Definition float_with (fl : flags) (ff : float_flags) (d : spec_float) (t : list ascii) : Prop :=
  exists u, t = float_sign fl d ++ u /\ unsigned_with ff (uppercase fl) d u.
(** u is t filled up to the width w with the character c; internal: after the sign, or
    else after the 0x of a finite number, or else in front *)
Definition padded (fl : flags) (ff : float_flags) (d : spec_float) (w : Z) (c : ascii) (t u : list ascii) : Prop :=
  let pad := repeat c (Z.to_nat w - length t) in
  match adjust fl with
  | Left => u = t ++ pad
  | Right => u = pad ++ t
  | Internal => exists a b, t = a ++ b /\ u = a ++ pad ++ b /\
      length a = match float_sign fl d with
                 | _ :: _ => 1%nat
                 | [] => match field ff, d with Hexfloat, S754_zero _ | Hexfloat, S754_finite _ _ _ => 2%nat | _, _ => 0%nat end
                 end
  end.
