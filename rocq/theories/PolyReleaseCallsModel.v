(** Programs of calls of the public members and operators of Factor, Term and Poly (pcall of
    PolyCalls.v; src/Poly.hpp:15-29, 54-101, 147-200, 219-289) when assertions are compiled out
    and every exception is caught: each call stands in its own try block. A call that makes an
    object leaves everything alone when it throws; a call in place leaves its object as the
    exception found it. The functions are those of PolyReleaseModel.v. *)
From Verif Require Import Base IntModel IOModel FracModel ElemModel PolyModel PolyCalls CatchModel ReleaseModel FracReleaseModel PolyReleaseModel.

Definition make {A} (s : objects) (m : res A) (put : A -> objects) : res (objects * event) :=
  match m with
  | Ok x => Ok (put x, Done)
  | Throw e => Ok (s, Caught e)
  | Abort => Abort
  | UB => UB
  | OutOfFuel => OutOfFuel
  end.
Definition change {A} (p : outcome A) (put : A -> objects) : res (objects * event) :=
  match snd p with
  | Ok _ => Ok (put (fst p), Done)
  | Throw e => Ok (put (fst p), Caught e)
  | Abort => Abort
  | UB => UB
  | OutOfFuel => OutOfFuel
  end.
Definition nd_call (s : objects) (c : pcall) : res (objects * event) :=
  let f := F s in let t := T s in let p := P s in
  match c with
  | FactorNew d name x => make s (Ok (mkFactor name x)) (putF s d)
  | FactorCopy d a => make s (Ok (f a)) (putF s d)
  | SetId a name => make s (Ok (mkFactor name (power (f a)))) (putF s a)
  | SetPower a x => make s (Ok (mkFactor (fid (f a)) x)) (putF s a)
  | TermNew d a => make s (Term_of_factor_nd (f a)) (putT s d)
  | TermCoeff d c a => make s (Term_of_nd c (f a)) (putT s d)
  | TermVector d c l => make s (Term_of_vector_nd c (map f l)) (putT s d)
  | TermCopy d a => make s (Ok (t a)) (putT s d)
  | MulFF d a b => make s (factor_mul_nd (f a) (f b)) (putT s d)
  | MulTF d a b => make s (term_mul_factor_nd (t a) (f b)) (putT s d)
  | MulFT d a b => make s (term_mul_factor_nd (t b) (f a)) (putT s d)
  | MulTT d a b => make s (term_mul_nd (t a) (t b)) (putT s d)
  | AppendFactor a b => change (appendFactor_nd (t a) (f b) false) (putT s a)
  | MulAssignF a b => change (term_mul_assign_factor_nd (t a) (f b)) (putT s a)
  | MulAssignT a b => change (term_mul_assign_nd (t a) (if Nat.eqb a b then None else Some (t b))) (putT s a)
  | Negate a => change (negate_term_nd (t a)) (putT s a)
  | SetCoeff a c => make s (Ok (mkTerm c (factors (t a)))) (putT s a)
  | PolyF d a => make s (Poly_of_factor_nd (f a)) (putP s d)
  | PolyT d a => make s (Poly_of_term (t a)) (putP s d)
  | PolyFs d l => make s (Poly_of_factors_nd (map f l)) (putP s d)
  | PolyTs d l => make s (Poly_of_terms_nd (map t l)) (putP s d)
  | PolyCopy d a => make s (Ok (p a)) (putP s d)
  | AppendTerm a b => change (appendTerm_nd (p a) (t b)) (putP s a)
  | AppendTerms a l => make s (appendTerms (p a) (map t l)) (putP s a)
  | AddFF d a b => make s (factor_add_nd (f a) (f b)) (putP s d)
  | SubFF d a b => make s (factor_sub_nd (f a) (f b)) (putP s d)
  | AddTT d a b => make s (term_add_nd (t a) (t b)) (putP s d)
  | SubTT d a b => make s (term_sub_nd (t a) (t b)) (putP s d)
  | AddAssign a b => change (poly_add_assign_nd (p a) (f b)) (putP s a)
  | SubAssign a b => change (poly_sub_assign_nd (p a) (f b)) (putP s a)
  end.
Fixpoint nd_calls (s : objects) (l : list pcall) : res (objects * list event) :=
  match l with
  | [] => Ok (s, [])
  | c :: l' => a <- nd_call s c ;; b <- nd_calls (fst a) l' ;; Ok (fst b, snd a :: snd b)
  end.
