(** Programs of calls of the public members and operators of Factor, Term and Poly (pcall of
    PolyCalls.v; src/Poly.hpp:15-29, 54-101, 147-200, 219-289) in which every exception is caught,
    with assertions compiled in, as in the default build: a failed one ends the program. The functions
    are those of PolyModel.v; PolyReleaseCallsModel.v has the same without assertions. *)
From Verif Require Import Base IntModel IOModel FracModel ElemModel PolyModel PolyCalls CatchModel PolyReleaseCallsModel.

Definition catch_call (s : objects) (c : pcall) : res (objects * event) :=
  let f := F s in let t := T s in let p := P s in
  match c with
  | FactorNew d name x => make s (Ok (mkFactor name x)) (putF s d)
  | FactorCopy d a => make s (Ok (f a)) (putF s d)
  | SetId a name => make s (Ok (mkFactor name (power (f a)))) (putF s a)
  | SetPower a x => make s (Ok (mkFactor (fid (f a)) x)) (putF s a)
  | TermNew d a => make s (Term_of_factor (f a)) (putT s d)
  | TermCoeff d c a => make s (Term_of c (f a)) (putT s d)
  | TermVector d c l => make s (Term_of_vector c (map f l)) (putT s d)
  | TermCopy d a => make s (Ok (t a)) (putT s d)
  | MulFF d a b => make s (factor_mul (f a) (f b)) (putT s d)
  | MulTF d a b => make s (term_mul_factor (t a) (f b)) (putT s d)
  | MulFT d a b => make s (factor_mul_term (f a) (t b)) (putT s d)
  | MulTT d a b => make s (term_mul (t a) (t b)) (putT s d)
  | AppendFactor a b => change (appendFactor (t a) (f b) false) (putT s a)
  | MulAssignF a b => change (term_mul_assign_factor (t a) (f b)) (putT s a)
  | MulAssignT a b => change (term_mul_assign (t a) (if Nat.eqb a b then None else Some (t b))) (putT s a)
  | Negate a => change (negate_term (t a)) (putT s a)
  | SetCoeff a c => make s (Ok (mkTerm c (factors (t a)))) (putT s a)
  | PolyF d a => make s (Poly_of_factor (f a)) (putP s d)
  | PolyT d a => make s (Poly_of_term (t a)) (putP s d)
  | PolyFs d l => make s (Poly_of_factors (map f l)) (putP s d)
  | PolyTs d l => make s (Poly_of_terms (map t l)) (putP s d)
  | PolyCopy d a => make s (Ok (p a)) (putP s d)
  | AppendTerm a b => change (appendTerm (p a) (t b)) (putP s a)
  | AppendTerms a l => make s (appendTerms (p a) (map t l)) (putP s a)
  | AddFF d a b => make s (factor_add (f a) (f b)) (putP s d)
  | SubFF d a b => make s (factor_sub (f a) (f b)) (putP s d)
  | AddTT d a b => make s (term_add (t a) (t b)) (putP s d)
  | SubTT d a b => make s (term_sub (t a) (t b)) (putP s d)
  | AddAssign a b => change (poly_add_assign (p a) (f b)) (putP s a)
  | SubAssign a b => change (poly_sub_assign (p a) (f b)) (putP s a)
  end.
Fixpoint catch_calls (s : objects) (l : list pcall) : res (objects * list event) :=
  match l with
  | [] => Ok (s, [])
  | c :: l' => a <- catch_call s c ;; b <- catch_calls (fst a) l' ;; Ok (fst b, snd a :: snd b)
  end.
