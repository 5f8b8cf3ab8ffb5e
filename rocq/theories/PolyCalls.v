(** Programs of calls of the public members and operators of Factor, Term and Poly. *)
From Coq Require Import Ascii QArith List.
From Verif Require Import Base IntModel IntSpec IOModel FracModel FracSpec ElemModel PolyModel PolySpec.
Local Open Scope list_scope.
Local Open Scope nat_scope.

(** The Factors, Terms and Polys of a program; the calls of src/Poly.hpp. The first
    number of a call that makes an object is where it is stored. *)
Record objects := mkObjects { F : nat -> Factor; T : nat -> Term; P : nat -> Poly }.
Inductive pcall :=
| FactorNew (d : nat) (name : chars) (x : Int) | FactorCopy (d f : nat) | SetId (f : nat) (name : chars) | SetPower (f : nat) (x : Int)
| TermNew (d f : nat) | TermCoeff (d : nat) (c : Frac) (f : nat) | TermVector (d : nat) (c : Frac) (fs : list nat) | TermCopy (d t : nat)
| MulFF (d f g : nat) | MulTF (d t f : nat) | MulFT (d f t : nat) | MulTT (d t u : nat)
| AppendFactor (t f : nat) | MulAssignF (t f : nat) | MulAssignT (t u : nat) | Negate (t : nat) | SetCoeff (t : nat) (c : Frac)
| PolyF (d f : nat) | PolyT (d t : nat) | PolyFs (d : nat) (fs : list nat) | PolyTs (d : nat) (ts : list nat) | PolyCopy (d p : nat)
| AppendTerm (p t : nat) | AppendTerms (p : nat) (ts : list nat)
| AddFF (d f g : nat) | SubFF (d f g : nat) | AddTT (d t u : nat) | SubTT (d t u : nat) | AddAssign (p f : nat) | SubAssign (p f : nat).

Definition put_at {A} (m : nat -> A) (n : nat) (x : A) : nat -> A := fun k => if k =? n then x else m k.
Definition putF (s : objects) d x := mkObjects (put_at (F s) d x) (T s) (P s).
Definition putT (s : objects) d x := mkObjects (F s) (put_at (T s) d x) (P s).
Definition putP (s : objects) d x := mkObjects (F s) (T s) (put_at (P s) d x).

Definition run_call (s : objects) (c : pcall) : res objects :=
  let f := F s in let t := T s in let p := P s in
  match c with
  | FactorNew d name x => Ok (putF s d (mkFactor name x))
  | FactorCopy d a => Ok (putF s d (f a))
  | SetId a name => Ok (putF s a (mkFactor name (power (f a))))
  | SetPower a x => Ok (putF s a (mkFactor (fid (f a)) x))
  | TermNew d a => x <- Term_of_factor (f a) ;; Ok (putT s d x)
  | TermCoeff d c a => x <- Term_of c (f a) ;; Ok (putT s d x)
  | TermVector d c l => x <- Term_of_vector c (map f l) ;; Ok (putT s d x)
  | TermCopy d a => Ok (putT s d (t a))
  | MulFF d a b => x <- factor_mul (f a) (f b) ;; Ok (putT s d x)
  | MulTF d a b => x <- term_mul_factor (t a) (f b) ;; Ok (putT s d x)
  | MulFT d a b => x <- factor_mul_term (f a) (t b) ;; Ok (putT s d x)
  | MulTT d a b => x <- term_mul (t a) (t b) ;; Ok (putT s d x)
  | AppendFactor a b => x <- final (appendFactor (t a) (f b) false) ;; Ok (putT s a x)
  | MulAssignF a b => x <- final (term_mul_assign_factor (t a) (f b)) ;; Ok (putT s a x)
  | MulAssignT a b => x <- final (term_mul_assign (t a) (if a =? b then None else Some (t b))) ;; Ok (putT s a x)
  | Negate a => x <- final (negate_term (t a)) ;; Ok (putT s a x)
  | SetCoeff a c => Ok (putT s a (mkTerm c (factors (t a))))
  | PolyF d a => x <- Poly_of_factor (f a) ;; Ok (putP s d x)
  | PolyT d a => x <- Poly_of_term (t a) ;; Ok (putP s d x)
  | PolyFs d l => x <- Poly_of_factors (map f l) ;; Ok (putP s d x)
  | PolyTs d l => x <- Poly_of_terms (map t l) ;; Ok (putP s d x)
  | PolyCopy d a => Ok (putP s d (p a))
  | AppendTerm a b => x <- final (appendTerm (p a) (t b)) ;; Ok (putP s a x)
  | AppendTerms a l => x <- appendTerms (p a) (map t l) ;; Ok (putP s a x)
  | AddFF d a b => x <- factor_add (f a) (f b) ;; Ok (putP s d x)
  | SubFF d a b => x <- factor_sub (f a) (f b) ;; Ok (putP s d x)
  | AddTT d a b => x <- term_add (t a) (t b) ;; Ok (putP s d x)
  | SubTT d a b => x <- term_sub (t a) (t b) ;; Ok (putP s d x)
  | AddAssign a b => x <- final (poly_add_assign (p a) (f b)) ;; Ok (putP s a x)
  | SubAssign a b => x <- final (poly_sub_assign (p a) (f b)) ;; Ok (putP s a x)
  end.
Fixpoint run_calls (s : objects) (l : list pcall) : res objects :=
  match l with
  | [] => Ok s
  | c :: l' => s <- run_call s c ;; run_calls s l'
  end.

(** *** Meaning: a factor is a variable and its power; a term is its coefficient and the
    value of the product of its powers at a point; a polynomial is its value at a point. *)
Definition point := list ascii -> Q.
Record meaning := mkMeaning { mF : nat -> list ascii * Z; mT : nat -> Q * (point -> Q); mP : nat -> point -> Q }.
Definition setF (m : meaning) d x := mkMeaning (put_at (mF m) d x) (mT m) (mP m).
Definition setT (m : meaning) d c x := mkMeaning (mF m) (put_at (mT m) d (c, x)) (mP m).
Definition setP (m : meaning) d x := mkMeaning (mF m) (mT m) (put_at (mP m) d x).
Definition Qsum (l : list Q) : Q := fold_right Qplus 0%Q l.
Definition Qprod (l : list Q) : Q := fold_right Qmult 1%Q l.
Definition means (m : meaning) (c : pcall) : meaning :=
  let f := fun a rho => Qpower (rho (fst (mF m a))) (snd (mF m a)) in
  let k := fun a => fst (mT m a) in let g := fun a => snd (mT m a) in
  let t := fun a rho => (k a * g a rho)%Q in let p := mP m in
  match c with
  | FactorNew d name x => setF m d (name, val x)
  | FactorCopy d a => setF m d (mF m a)
  | SetId a name => setF m a (name, snd (mF m a))
  | SetPower a x => setF m a (fst (mF m a), val x)
  | TermNew d a => setT m d 1 (f a)
  | TermCoeff d c a => setT m d (Fval c) (f a)
  | TermVector d c l => setT m d (Fval c) (fun rho => Qprod (map (fun a => f a rho) l))
  | TermCopy d a => setT m d (k a) (g a)
  | MulFF d a b => setT m d 1 (fun rho => f a rho * f b rho)%Q
  | MulTF d a b => setT m d (k a) (fun rho => g a rho * f b rho)%Q
  | MulFT d a b => setT m d (k b) (fun rho => f a rho * g b rho)%Q
  | MulTT d a b => setT m d (k a * k b) (fun rho => g a rho * g b rho)%Q
  | AppendFactor a b | MulAssignF a b => setT m a (k a) (fun rho => g a rho * f b rho)%Q
  | MulAssignT a b => setT m a (k a * k b) (fun rho => g a rho * g b rho)%Q
  | Negate a => setT m a (- k a) (g a)
  | SetCoeff a c => setT m a (Fval c) (g a)
  | PolyF d a => setP m d (f a)
  | PolyT d a => setP m d (t a)
  | PolyFs d l => setP m d (fun rho => Qsum (map (fun a => f a rho) l))
  | PolyTs d l => setP m d (fun rho => Qsum (map (fun a => t a rho) l))
  | PolyCopy d a => setP m d (p a)
  | AppendTerm a b => setP m a (fun rho => p a rho + t b rho)%Q
  | AppendTerms a l => setP m a (fun rho => p a rho + Qsum (map (fun b => t b rho) l))%Q
  | AddFF d a b => setP m d (fun rho => f a rho + f b rho)%Q
  | SubFF d a b => setP m d (fun rho => f a rho - f b rho)%Q
  | AddTT d a b => setP m d (fun rho => t a rho + t b rho)%Q
  | SubTT d a b => setP m d (fun rho => t a rho - t b rho)%Q
  | AddAssign a b => setP m a (fun rho => p a rho + f b rho)%Q
  | SubAssign a b => setP m a (fun rho => p a rho - f b rho)%Q
  end.
Definition means_all (m : meaning) (l : list pcall) : meaning := fold_left means l m.

(** The objects have the meaning m: wherever no variable is zero the values agree. *)
Definition nonzero (rho : point) : Prop := forall n, ~ (rho n == 0)%Q.
Definition stands (s : objects) (m : meaning) : Prop :=
  (forall a, factor_ok (F s a) /\ mF m a = (fid (F s a), val (power (F s a)))) /\
  (forall a, term_ok (T s a) /\ (Fval (coeff (T s a)) == fst (mT m a))%Q /\
     forall rho, nonzero rho -> (fsval rho (map snd (factors (T s a))) == snd (mT m a) rho)%Q) /\
  (forall a, poly_ok (P s a) /\ forall rho, nonzero rho -> (pval rho (P s a) == mP m a rho)%Q).
(** Int and Frac arguments are those the library produces. *)
Definition args_ok (c : pcall) : Prop :=
  match c with
  | FactorNew _ _ x | SetPower _ x => canonical x
  | TermCoeff _ c _ | TermVector _ c _ | SetCoeff _ c => reduced c
  | _ => True
  end.
(** Calls that find a place among the terms of a Poly; calls that do arithmetic on coefficients. *)
Definition adds (c : pcall) : bool :=
  match c with
  | PolyFs _ _ | PolyTs _ _ | AppendTerm _ _ | AppendTerms _ _ | AddFF _ _ _ | SubFF _ _ _ | AddTT _ _ _ | SubTT _ _ _
  | AddAssign _ _ | SubAssign _ _ => true
  | _ => false
  end.
Definition computes (c : pcall) : bool :=
  match c with
  | MulTT _ _ _ | MulAssignT _ _ | Negate _ | AppendTerm _ _ | AddTT _ _ _ | SubTT _ _ _ | AddAssign _ _ | SubAssign _ _ => true
  | _ => false
  end.
