(** Specification vocabulary for text: what integer a string of the form
    [-][0-9]+ denotes, and the canonical decimal numeral of an integer. *)
From Coq Require Import Ascii String.
From Verif Require Import Base.

(** The value of a decimal digit, written out. *)
Definition digit_of (c : ascii) : option Z :=
  match c with
  | "0" => Some 0 | "1" => Some 1 | "2" => Some 2 | "3" => Some 3 | "4" => Some 4
  | "5" => Some 5 | "6" => Some 6 | "7" => Some 7 | "8" => Some 8 | "9" => Some 9
  | _ => None
  end%char.

(** [numeral ds n]: ds is a non-empty string of decimal digits denoting n. *)
Inductive numeral : list ascii -> Z -> Prop :=
| numeral_one c d : digit_of c = Some d -> numeral [c] d
| numeral_snoc ds c n d : numeral ds n -> digit_of c = Some d -> numeral (ds ++ [c]) (10 * n + d).

(** [int_text s z]: s is an optional minus sign followed by a numeral, and denotes z. *)
Inductive int_text : list ascii -> Z -> Prop :=
| it_pos ds n : numeral ds n -> int_text ds n
| it_neg ds n : numeral ds n -> int_text ("-"%char :: ds) (- n).

(** Canonical text: no leading zero (except "0" itself), no "-0". *)
Inductive canonical_text : list ascii -> Z -> Prop :=
| ct_zero : canonical_text ["0"%char] 0
| ct_pos c ds n : numeral (c :: ds) n -> c <> "0"%char -> canonical_text (c :: ds) n
| ct_neg c ds n : numeral (c :: ds) n -> c <> "0"%char -> canonical_text ("-"%char :: c :: ds) (- n).

(** The next character, if any, cannot extend a numeral. *)
Definition ends_numeral (t : list ascii) : Prop :=
  match t with [] => True | c :: _ => digit_of c = None end.

(** No prefix of s denotes an integer. *)
Definition no_int_prefix (s : list ascii) : Prop :=
  forall p t z, s = p ++ t -> ~ int_text p z.
