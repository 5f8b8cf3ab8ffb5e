(** Specification vocabulary for Poly.hpp: alphabetical order of names, the
    monomial a Term stands for, values at a point, the orders on factors and terms. *)
From Coq Require Import Ascii QArith Sorted List.
From Verif Require Import Base IntModel IntSpec FracModel FracSpec IOSpec PolyModel.
Local Open Scope Z_scope.
Local Open Scope list_scope.

(** s comes before t in the dictionary (characters by their codes) *)
Inductive str_before : list ascii -> list ascii -> Prop :=
| sb_nil c t : str_before [] (c :: t)
| sb_head c d s t : (N_of_ascii c < N_of_ascii d)%N -> str_before (c :: s) (d :: t)
| sb_tail c s t : str_before s t -> str_before (c :: s) (c :: t).

Definition factor_ok (f : Factor) : Prop := canonical (power f).
(** lexicographic on (name, exponent) *)
Definition factor_before (f g : Factor) : Prop :=
  str_before (fid f) (fid g) \/ (fid f = fid g /\ val (power f) < val (power g)).

(** Every name once, in dictionary order, stored under itself, with a canonical exponent. *)
Definition map_ok (m : fmap) : Prop :=
  StronglySorted str_before (map fst m) /\ Forall (fun e => fid (snd e) = fst e /\ factor_ok (snd e)) m.
Definition term_ok (t : Term) : Prop := reduced (coeff t) /\ map_ok (factors t).
Definition poly_ok (p : Poly) : Prop := Forall term_ok p.

(** The names that occur, and the exponent of each name (0 if it does not occur). *)
Definition occurs (t : Term) (k : list ascii) : Prop := In k (map fst (factors t)).
Definition degree (f : Factor) (k : list ascii) : Z :=
  if list_eq_dec ascii_dec (fid f) k then val (power f) else 0.
Definition total (l : list Factor) (k : list ascii) : Z := fold_right (fun f s => degree f k + s) 0 l.
Definition exponent (t : Term) (k : list ascii) : Z := total (map snd (factors t)) k.

(** Values, the variables having the values rho. *)
Definition fval (rho : list ascii -> Q) (f : Factor) : Q := ((rho (fid f)) ^ (val (power f)))%Q.
Definition fsval (rho : list ascii -> Q) (l : list Factor) : Q := fold_right (fun f v => (fval rho f * v)%Q) 1%Q l.
Definition tval (rho : list ascii -> Q) (t : Term) : Q := (Fval (coeff t) * fsval rho (map snd (factors t)))%Q.
Definition pval (rho : list ascii -> Q) (p : Poly) : Q := fold_right (fun t v => (tval rho t + v)%Q) 0%Q p.

(** The powers have a meaning: no negative power of zero. *)
Definition meaningful (rho : list ascii -> Q) (l : list Factor) : Prop :=
  Forall (fun f => ~ (rho (fid f) == 0)%Q \/ 0 <= val (power f)) l.

(** x < y: fewer factors, or some factor is before the one at the same place. *)
Definition term_before (x y : Term) : Prop :=
  (length (factors x) < length (factors y))%nat \/
  exists i f g, nth_error (map snd (factors x)) i = Some f /\ nth_error (map snd (factors y)) i = Some g /\ factor_before f g.
(** Every term is before all later ones. *)
Definition ascending (p : Poly) : Prop := ForallOrdPairs term_before p.
(** No term is before an earlier one (what std::list::merge needs). *)
Definition merge_sorted (p : Poly) : Prop := ForallOrdPairs (fun x y => ~ term_before y x) p.

(** Text forms. *)
Inductive factor_text (f : Factor) : list ascii -> Prop :=
| ft_one : val (power f) = 1 -> factor_text f (fid f)
| ft_pow s : val (power f) <> 1 -> canonical_text s (val (power f)) -> factor_text f (fid f ++ "^"%char :: s).
Definition frac_text (f : Frac) (s : list ascii) : Prop :=
  exists n d, canonical_text n (val (top f)) /\ canonical_text d (val (bot f)) /\ s = "("%char :: n ++ "/"%char :: d ++ [")"%char].
(** texts with sep between them *)
Fixpoint join (sep : list ascii) (l : list (list ascii)) : list ascii :=
  match l with
  | [] => []
  | [s] => s
  | s :: l' => s ++ sep ++ join sep l'
  end.
Definition times_sep : list ascii := [" "; "*"; " "]%char.
Definition plus_sep : list ascii := [" "; "+"; " "]%char.
(** 0; or the coefficient, left out when it is 1 and there are factors (written 1
    when there are none), and the factors *)
Inductive term_text (t : Term) : list ascii -> Prop :=
| tt_zero : (Fval (coeff t) == 0)%Q -> term_text t ["0"%char]
| tt_unit : (Fval (coeff t) == 1)%Q -> factors t = [] -> term_text t ["1"%char]
| tt_one l : (Fval (coeff t) == 1)%Q -> factors t <> [] -> Forall2 factor_text (map snd (factors t)) l ->
    term_text t (join times_sep l)
| tt_coeff c l : ~ (Fval (coeff t) == 0)%Q -> ~ (Fval (coeff t) == 1)%Q -> frac_text (coeff t) c ->
    Forall2 factor_text (map snd (factors t)) l -> term_text t (join times_sep (c :: l)).

(** t is x times y: coefficients multiplied, exponents added; and so are the values *)
Definition product_of (x y t : Term) : Prop :=
  term_ok t /\ (Fval (coeff t) == Fval (coeff x) * Fval (coeff y))%Q /\
  (forall k, exponent t k = exponent x k + exponent y k) /\
  (forall k, occurs t k <-> occurs x k \/ occurs y k) /\
  (forall rho, meaningful rho (map snd (factors x)) -> meaningful rho (map snd (factors y)) -> (tval rho t == tval rho x * tval rho y)%Q).
(** t is x times the factor f *)
Definition times_factor (x : Term) (f : Factor) (t : Term) : Prop :=
  term_ok t /\ coeff t = coeff x /\
  (forall k, exponent t k = exponent x k + degree f k) /\
  (forall k, occurs t k <-> occurs x k \/ fid f = k) /\
  (forall rho, meaningful rho (map snd (factors x)) -> meaningful rho [f] -> (tval rho t == tval rho x * fval rho f)%Q).
(** the one-factor term f *)
Definition single (c : Q) (f : Factor) (t : Term) : Prop :=
  term_ok t /\ (Fval (coeff t) == c)%Q /\ factors t = [(fid f, f)].

(** The coefficient arithmetic of x * y and x + y does not stop at an assertion. *)
Definition mul_safe (x y : Term) : Prop :=
  norm_safe (val (top (coeff x)) * val (top (coeff y))) (val (bot (coeff x)) * val (bot (coeff y))).
Definition add_safe (x y : Term) : Prop :=
  norm_safe (val (top (coeff x)) * val (bot (coeff y)) + val (top (coeff y)) * val (bot (coeff x))) (val (bot (coeff x)) * val (bot (coeff y))).

(** What is really printed: equals_int32 takes every power of 10^9 for 1. *)
(** 1, 10^9, 10^18, ... *)
Definition shown_as_one (p : Int) : Prop := exists n, val p = 10 ^ (9 * Z.of_nat n).
(** what is really written: no power at all when it is a power of 10^9 *)
Inductive written (f : Factor) : list ascii -> Prop :=
| wr_bare : shown_as_one (power f) -> written f (fid f)
| wr_pow s : ~ shown_as_one (power f) -> canonical_text s (val (power f)) -> written f (fid f ++ "^"%char :: s).
(** as term_text, with the factors as they are really written *)
Inductive term_written (t : Term) : list ascii -> Prop :=
| tw_zero : (Fval (coeff t) == 0)%Q -> term_written t ["0"%char]
| tw_unit : (Fval (coeff t) == 1)%Q -> factors t = [] -> term_written t ["1"%char]
| tw_one l : (Fval (coeff t) == 1)%Q -> factors t <> [] -> Forall2 written (map snd (factors t)) l ->
    term_written t (join times_sep l)
| tw_coeff c l : ~ (Fval (coeff t) == 0)%Q -> ~ (Fval (coeff t) == 1)%Q -> frac_text (coeff t) c ->
    Forall2 written (map snd (factors t)) l -> term_written t (join times_sep (c :: l)).
