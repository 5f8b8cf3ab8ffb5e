(** What programs of calls of Factor, Term and Poly without assertions should do. A factor is a
    name and an integer; a term is a pair of integers (numerator and denominator, as in
    FracReleaseCallsSpec.v) and an exponent for each of its names; a polynomial is a list of
    terms. Of the model only the names of calls and events are used, and the values of Int and
    Frac arguments. *)
From Coq Require Import ZArith Ascii List Permutation.
From Verif Require Import Base IntModel IntSpec FracModel PolyCalls CatchModel FracReleaseCallsSpec.
Import ListNotations.
Local Open Scope list_scope.
Local Open Scope Z_scope.

Definition name := list ascii.
(** the exponent of each name that occurs *)
Definition monomial := name -> option Z.
Record sterm := mkS { sc : pair_; mono : monomial }.
Record sobjects := mkSO { sF : nat -> name * Z; sT : nat -> sterm; sP : nat -> list sterm }.

Definition add_opt (a b : option Z) : option Z :=
  match a, b with
  | Some x, Some y => Some (x + y)
  | Some x, None => Some x
  | None, b => b
  end.
Definition at_name (f : name * Z) : monomial := fun k => if list_eq_dec ascii_dec (fst f) k then Some (snd f) else None.
Definition all_names (l : list (name * Z)) : monomial := fun k => fold_right (fun f r => add_opt (at_name f k) r) None l.
Definition times (m n : monomial) (r : monomial) : Prop := forall k, r k = add_opt (m k) (n k).
Definition same (m n : monomial) : Prop := forall k, m k = n k.

(** What may become of a coefficient old that is set to n/d and reduced *)
Inductive becomes (old : pair_) (n d : Z) : event -> pair_ -> Prop :=
| b_done q : lowest n d q -> becomes old n d Done q
| b_zero : n = 0 -> d = 0 -> becomes old n d (Caught DivideByZero) (0, 0)
| b_old : becomes old n d (Caught OutOfRange) old
| b_left q : unreduced n d q -> becomes old n d (Caught OutOfRange) q.
Definition product (p q : pair_) := becomes p (fst p * fst q) (snd p * snd q).
Definition sum (p q : pair_) := becomes p (fst p * snd q + fst q * snd p) (snd p * snd q).
Definition minus (p : pair_) := becomes p (- fst p) (snd p).
(** x appended to p: inserted before some term, or added to the coefficient of a term with
    the same monomial *)
Inductive appends (p : list sterm) (x : sterm) : event -> list sterm -> Prop :=
| a_new l y r : p = l ++ y :: r -> appends p x Done (l ++ x :: y :: r)
| a_old l y r ev q : p = l ++ y :: r -> same (mono y) (mono x) -> sum (sc y) (sc x) ev q -> appends p x ev (l ++ mkS q (mono y) :: r).

Definition keepsF (d : nat) (s s' : sobjects) : Prop := (forall k, k <> d -> sF s' k = sF s k) /\ (forall k, sT s' k = sT s k) /\ (forall k, sP s' k = sP s k).
Definition keepsT (d : nat) (s s' : sobjects) : Prop := (forall k, sF s' k = sF s k) /\ (forall k, k <> d -> sT s' k = sT s k) /\ (forall k, sP s' k = sP s k).
Definition keepsP (d : nat) (s s' : sobjects) : Prop := (forall k, sF s' k = sF s k) /\ (forall k, sT s' k = sT s k) /\ (forall k, k <> d -> sP s' k = sP s k).
Definition is_term (x : sterm) (q : pair_) (m : monomial -> Prop) : Prop := sc x = q /\ m (mono x).
Definition of_int (x : Int) : Z := val x.
Definition of_frac (c : Frac) : pair_ := (val (top c), val (bot c)).

Definition pcall_does (s : sobjects) (c : pcall) (ev : event) (s' : sobjects) : Prop :=
  let f := sF s in let t := sT s in let p := sP s in let unit a := mkS (1, 1) (all_names [f a]) in let unit' a := mkS (-1, 1) (all_names [f a]) in
  match c with
  | FactorNew d n x => ev = Done /\ keepsF d s s' /\ sF s' d = (n, of_int x)
  | FactorCopy d a => ev = Done /\ keepsF d s s' /\ sF s' d = f a
  | SetId a n => ev = Done /\ keepsF a s s' /\ sF s' a = (n, snd (f a))
  | SetPower a x => ev = Done /\ keepsF a s s' /\ sF s' a = (fst (f a), of_int x)
  | TermNew d a => ev = Done /\ keepsT d s s' /\ sT s' d = unit a
  | TermCoeff d c a => ev = Done /\ keepsT d s s' /\ sT s' d = mkS (of_frac c) (all_names [f a])
  | TermVector d c l => ev = Done /\ keepsT d s s' /\ is_term (sT s' d) (of_frac c) (same (all_names (map f l)))
  | TermCopy d a => ev = Done /\ keepsT d s s' /\ sT s' d = t a
  | MulFF d a b => ev = Done /\ keepsT d s s' /\ is_term (sT s' d) (1, 1) (times (at_name (f a)) (at_name (f b)))
  | MulTF d a b => ev = Done /\ keepsT d s s' /\ is_term (sT s' d) (sc (t a)) (times (mono (t a)) (at_name (f b)))
  | MulFT d a b => ev = Done /\ keepsT d s s' /\ is_term (sT s' d) (sc (t b)) (times (mono (t b)) (at_name (f a)))
  | MulTT d a b => keepsT d s s' /\ exists q, product (sc (t a)) (sc (t b)) ev q /\
      match ev with
      | Done => is_term (sT s' d) q (times (mono (t a)) (mono (t b)))
      | _ => sT s' d = t d
      end
  | AppendFactor a b | MulAssignF a b => ev = Done /\ keepsT a s s' /\ is_term (sT s' a) (sc (t a)) (times (mono (t a)) (at_name (f b)))
  (* whatever is thrown, the exponents are those of the product *)
  | MulAssignT a b => keepsT a s s' /\ exists q, product (sc (t a)) (sc (t b)) ev q /\ is_term (sT s' a) q (times (mono (t a)) (mono (t b)))
  | Negate a => keepsT a s s' /\ exists q, minus (sc (t a)) ev q /\ sT s' a = mkS q (mono (t a))
  | SetCoeff a c => ev = Done /\ keepsT a s s' /\ sT s' a = mkS (of_frac c) (mono (t a))
  | PolyF d a => ev = Done /\ keepsP d s s' /\ sP s' d = [unit a]
  | PolyT d a => ev = Done /\ keepsP d s s' /\ sP s' d = [t a]
  | PolyFs d l => ev = Done /\ keepsP d s s' /\ l = [] /\ sP s' d = []
  | PolyTs d l => ev = Done /\ keepsP d s s' /\ l = [] /\ sP s' d = []
  | PolyCopy d a => ev = Done /\ keepsP d s s' /\ sP s' d = p a
  | AppendTerm a b => keepsP a s s' /\ appends (p a) (t b) ev (sP s' a)
  | AppendTerms a l => ev = Done /\ keepsP a s s' /\ Permutation (p a ++ map t l) (sP s' a)
  | AddFF d a b => ev = Done /\ keepsP d s s' /\ appends [unit a] (unit b) Done (sP s' d)
  | SubFF d a b => ev = Done /\ keepsP d s s' /\ appends [unit a] (unit' b) Done (sP s' d)
  | AddTT d a b => keepsP d s s' /\ exists r, appends [t a] (t b) ev r /\ sP s' d = (match ev with Done => r | _ => p d end)
  | SubTT d a b => keepsP d s s' /\
      ((exists q r, minus (sc (t b)) Done q /\ appends [t a] (mkS q (mono (t b))) ev r /\ sP s' d = (match ev with Done => r | _ => p d end)) \/
       (exists e q, ev = Caught e /\ minus (sc (t b)) ev q /\ sP s' d = p d))
  | AddAssign a b => keepsP a s s' /\ appends (p a) (unit b) ev (sP s' a)
  | SubAssign a b => keepsP a s s' /\ appends (p a) (unit' b) ev (sP s' a)
  end.
Inductive program_does : sobjects -> list pcall -> list event -> sobjects -> Prop :=
| d_nil s : program_does s [] [] s
| d_cons s c ev s1 l evs s' : pcall_does s c ev s1 -> program_does s1 l evs s' -> program_does s (c :: l) (ev :: evs) s'.
