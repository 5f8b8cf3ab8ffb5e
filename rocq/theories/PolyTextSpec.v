(** When two factors, terms or polynomials look the same. *)
From Coq Require Import Ascii String QArith List.
From Verif Require Import Base IntModel IntSpec FracModel FracSpec IOModel IOSpec PolyModel PolySpec.
Import ListNotations.

(** Names of variables that cannot be taken for something else: they do not begin
    with a digit or a parenthesis and have neither blanks nor ^ in them. *)
Definition clear_name (s : list ascii) : Prop :=
  (exists c r, s = c :: r /\ digit_of c = None /\ c <> "("%char) /\ ~ In " "%char s /\ ~ In "^"%char s.
Definition clear_term (t : Term) : Prop := Forall (fun f => clear_name (fid f)) (map snd (factors t)).

(** The same variable; and the same exponent, or both are powers of 10^9. *)
Definition looks_factor (f g : Factor) : Prop :=
  fid f = fid g /\ (power f = power g \/ shown_as_one (power f) /\ shown_as_one (power g)).
(** Both are zero; or the same coefficient and factors that look the same. *)
Definition looks_term (t u : Term) : Prop :=
  ((Fval (coeff t) == 0)%Q /\ (Fval (coeff u) == 0)%Q) \/
  (coeff t = coeff u /\ Forall2 looks_factor (map snd (factors t)) (map snd (factors u))).
Definition looks_poly (p q : Poly) : Prop := Forall2 looks_term p q.
