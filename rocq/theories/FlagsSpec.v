(** What an integer looks like under given formatting flags. *)
From Coq Require Import Ascii String.
From Verif Require Import Base IOSpec FlagsModel.
Local Open Scope list_scope.

(** [base_numeral b up t n]: t is the numeral of n in base b, without leading zeros *)
Definition base_digit (b : Z) (upper : bool) (c : ascii) (d : Z) : Prop :=
  0 <= d < b /\ nth_error (list_ascii_of_string (if upper then "0123456789ABCDEF" else "0123456789abcdef")) (Z.to_nat d) = Some c.
Inductive base_numeral (b : Z) (upper : bool) : list ascii -> Z -> Prop :=
| bn_one c d : base_digit b upper c d -> base_numeral b upper [c] d
| bn_snoc t n c d : base_numeral b upper t n -> 0 < n -> base_digit b upper c d -> base_numeral b upper (t ++ [c]) (b * n + d).

(** the sign, also + if showpos is set (and the base is 10); 0, 0x or 0X if showbase
    is set (and the base is not 10 and v not 0); the numeral *)
Definition sign_text (fl : flags) (v : Z) : list ascii :=
  if v <? 0 then ["-"%char] else match base fl with Dec => if showpos fl then ["+"%char] else [] | _ => [] end.
Definition prefix_text (fl : flags) (v : Z) : list ascii :=
  if showbase fl && negb (v =? 0) then
    match base fl with Dec => [] | Oct => ["0"%char] | Hex => ["0"%char; if uppercase fl then "X"%char else "x"%char] end
  else [].
Definition plain_text (fl : flags) (t : list ascii) (n : Z) : Prop :=
  match base fl with Dec => canonical_text t n | Oct => base_numeral 8 false t n | Hex => base_numeral 16 (uppercase fl) t n end.
Definition text_with (fl : flags) (t : list ascii) (v : Z) : Prop :=
  exists num, plain_text fl num (Z.abs v) /\ t = sign_text fl v ++ prefix_text fl v ++ num.

(** the nine digits of |v| from the 9i-th on *)
Definition nine_digits (v : Z) (i : nat) : Z := Z.abs v / 10 ^ (9 * Z.of_nat i) mod 10 ^ 9.
