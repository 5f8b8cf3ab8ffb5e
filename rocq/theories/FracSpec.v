(** Specification vocabulary for Frac: the rational it denotes, reduced form,
    and the inputs on which normalisation meets no failing Int division. *)
From Coq Require Import QArith.
From Verif Require Import Base IntModel IntSpec FracModel.
Local Open Scope Z_scope.

Definition ratio (t b : Z) : Q := (inject_Z t / inject_Z b)%Q.
Definition Fval (f : Frac) : Q := ratio (val (top f)) (val (bot f)).

Definition reduced (f : Frac) : Prop :=
  canonical (top f) /\ canonical (bot f) /\ 0 < val (bot f) /\ Z.gcd (val (top f)) (val (bot f)) = 1.

(** Euclid's algorithm on (a, b) only meets divisions that do not abort. *)
Inductive gcd_safe : Z -> Z -> Prop :=
| gcd_safe_zero a : gcd_safe a 0
| gcd_safe_step a b : 0 < b -> div_safe a b -> gcd_safe b (a mod b) -> gcd_safe a b.

(** ... and neither do the two divisions by the greatest common divisor. *)
Definition norm_safe (t b : Z) : Prop :=
  gcd_safe (Z.max (Z.abs t) (Z.abs b)) (Z.min (Z.abs t) (Z.abs b)) /\
  div_safe (Z.abs t) (Z.gcd t b) /\ div_safe (Z.abs b) (Z.gcd t b).

(** What constructing a fraction from t and b may do: throw when b = 0, abort
    exactly when not [norm_safe], and otherwise return t/b in reduced form. *)
Definition makes (m : res Frac) (t b : Z) : Prop :=
  (b = 0 /\ m = Throw DivideByZero) \/
  (b <> 0 /\ ~ norm_safe t b /\ m = Abort) \/
  (b <> 0 /\ norm_safe t b /\ exists f, m = Ok f /\ reduced f /\ (Fval f == ratio t b)%Q).

(** The same for an operation in place (b <> 0): the final object is t/b in
    reduced form, or the program aborts. *)
Definition leaves (p : Frac * res unit) (t b : Z) : Prop :=
  (norm_safe t b /\ exists f, p = (f, Ok tt) /\ reduced f /\ (Fval f == ratio t b)%Q) \/
  (~ norm_safe t b /\ snd p = Abort).

(** *** Text forms *)
From Coq Require Import Ascii String.
From Verif Require Import IOSpec.
Local Open Scope list_scope.

Definition not_next (c : ascii) (t : list ascii) : Prop := match t with [] => True | c' :: _ => c' <> c end.

(** [frac_body p t n d]: p, followed by t, is a longest INT or INT/INT denoting n/d. *)
Inductive frac_body : list ascii -> list ascii -> Z -> Z -> Prop :=
| fb_int p t n : int_text p n -> ends_numeral t -> not_next "/" t -> frac_body p t n 1
| fb_frac p q t n d : int_text p n -> int_text q d -> ends_numeral t -> frac_body (p ++ "/"%char :: q) t n d.

(** [frac_form closed p t n d]: the same with an optional opening parenthesis, whose
    closing one may be missing. *)
Inductive frac_form : bool -> list ascii -> list ascii -> Z -> Z -> Prop :=
| ff_plain p t n d : frac_body p t n d -> frac_form false p t n d
| ff_open p t n d : frac_body p t n d -> not_next ")" t -> frac_form false ("("%char :: p) t n d
| ff_closed p t n d : frac_body p (")"%char :: t) n d -> frac_form true ("("%char :: p ++ [")"%char]) t n d.

(** The strings the constructor accepts (a zero denominator is accepted here). *)
Inductive frac_string : list ascii -> Z -> Z -> Prop :=
| fs_empty : frac_string [] 0 1
| fs_int s n : int_text s n -> frac_string s n 1
| fs_frac s q n d : int_text s n -> int_text q d -> frac_string (s ++ "/"%char :: q) n d.

(** *** Doubles *)
From Coq Require Import SpecFloat Qabs.
Definition dval (x : spec_float) : Q :=
  match x with
  | S754_finite s m e => (inject_Z (if s then Zneg m else Zpos m) * (2 # 1) ^ e)%Q
  | _ => 0%Q
  end.
Definition finite (x : spec_float) : Prop :=
  match x with S754_zero _ | S754_finite _ _ _ => True | _ => False end.
(** n is the integer nearest to q, the even one of two equally near *)
Definition nearest_even (q : Q) (n : Z) : Prop :=
  (Qabs (q - inject_Z n) <= 1 # 2)%Q /\ ((Qabs (q - inject_Z n) == 1 # 2)%Q -> Z.even n = true).
