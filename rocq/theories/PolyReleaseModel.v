(** Factor, Term and Poly (src/Poly.hpp) when assertions are compiled out (see
    ReleaseModel.v). Poly.hpp has no assertion itself: these are the functions of
    PolyModel.v over the operators of Int and Frac without assertions. Comparing and
    printing meet no assertion and are taken from PolyModel.v. A coefficient keeps what
    the failing operator of Frac leaves ([on_coeff]). *)
From Coq Require Import Ascii String.
From Verif Require Import Base IntModel IOModel FracModel ElemModel PolyModel ReleaseModel FracReleaseModel.
Local Open Scope Z_scope.
Local Open Scope list_scope.

(** src/Poly.hpp:92-101, 85-89, 59-61 *)
Definition appendFactor_nd (t : Term) (x : Factor) (same : bool) : outcome Term :=
  match map_find (factors t) (fid x) with
  | None => done (mkTerm (coeff t) (map_insert (factors t) (fid x) x))
  | Some i =>
      eval t (get_at (factors t) i) (fun e =>
      eval t (add_assign_nd (power (snd e)) (if same then None else Some (power x))) (fun p =>
      done (mkTerm (coeff t) (replace (factors t) i (fst e, mkFactor (fid (snd e)) p)))))
  end.
Fixpoint appendFactors_nd (t : Term) (l : list Factor) : outcome Term :=
  match l with
  | [] => done t
  | x :: l' => andthen (appendFactor_nd t x false) (fun t => appendFactors_nd t l')
  end.
Definition Term_of_factor_nd (x : Factor) : res Term :=
  c <- Frac_of_int 1 ;; final (appendFactor_nd (mkTerm c []) x false).
Definition Term_of_nd (c : Frac) (x : Factor) : res Term := final (appendFactor_nd (mkTerm c []) x false).
Definition Term_of_vector_nd (c : Frac) (l : list Factor) : res Term := final (appendFactors_nd (mkTerm c []) l).

(** negate -- src/Poly.hpp:65 *)
Definition negate_term_nd (t : Term) : outcome Term :=
  eval t (Int_of_int64 (-1) 0) (fun m => on_coeff t (FI_mul_assign_nd (coeff t) m)).

(** operator* and operator*= -- src/Poly.hpp:71, 159-189 *)
Definition factor_mul_nd (x y : Factor) : res Term :=
  t <- Term_of_factor_nd x ;; final (appendFactor_nd t y false).
Definition term_mul_factor_nd (x : Term) (y : Factor) : res Term := final (appendFactor_nd x y false).
Definition term_mul_nd (x y : Term) : res Term :=
  final (andthen (appendFactors_nd x (map snd (factors y))) (fun t => on_coeff t (F_mul_assign_nd (coeff t) (Some (coeff y))))).
Definition term_mul_assign_factor_nd (x : Term) (y : Factor) : outcome Term := appendFactor_nd x y false.
Fixpoint append_own_nd (fuel i : nat) (t : Term) : outcome Term :=
  match fuel with
  | O => (t, OutOfFuel)
  | S f =>
      match nth_error (factors t) i with
      | None => done t
      | Some e => andthen (appendFactor_nd t (snd e) true) (append_own_nd f (S i))
      end
  end.
Definition term_mul_assign_nd (x : Term) (y : option Term) : outcome Term :=
  match y with
  | Some y => andthen (appendFactors_nd x (map snd (factors y))) (fun t => on_coeff t (F_mul_assign_nd (coeff t) (Some (coeff y))))
  | None => andthen (append_own_nd (S (length (factors x))) 0 x) (fun t => on_coeff t (F_mul_assign_nd (coeff t) None))
  end.

(** Poly::appendTerm -- src/Poly.hpp:241-249; constructors -- 197-200, 219-227 *)
Definition appendTerm_nd (p : Poly) (x : Term) : outcome Poly :=
  eval p (find_place p x) (fun ab =>
  match snd ab with
  | [] => (p, UB)
  | t :: rest =>
      eval p (term_eq t x) (fun e =>
      if e : bool then
        let '(t', r) := on_coeff t (F_add_assign_nd (coeff t) (Some (coeff x))) in (fst ab ++ t' :: rest, r)
      else done (fst ab ++ x :: t :: rest))
  end).
Definition Poly_of_factor_nd (x : Factor) : res Poly := t <- Term_of_factor_nd x ;; Ok [t].
Fixpoint append_each_nd (p : Poly) (l : list Term) : outcome Poly :=
  match l with
  | [] => done p
  | x :: l' => andthen (appendTerm_nd p x) (fun p => append_each_nd p l')
  end.
Definition Poly_of_terms_nd (l : list Term) : res Poly := final (append_each_nd [] l).
Fixpoint append_each_factor_nd (p : Poly) (l : list Factor) : outcome Poly :=
  match l with
  | [] => done p
  | x :: l' => eval p (Term_of_factor_nd x) (fun t => andthen (appendTerm_nd p t) (fun p => append_each_factor_nd p l'))
  end.
Definition Poly_of_factors_nd (l : list Factor) : res Poly := final (append_each_factor_nd [] l).

(** operators -- src/Poly.hpp:256-289 *)
Definition factor_add_nd (x y : Factor) : res Poly :=
  tx <- Term_of_factor_nd x ;; p <- Poly_of_term tx ;; t <- Term_of_factor_nd y ;; final (appendTerm_nd p t).
Definition term_add_nd (x y : Term) : res Poly := p <- Poly_of_term x ;; final (appendTerm_nd p y).
Definition poly_add_assign_nd (p : Poly) (y : Factor) : outcome Poly :=
  eval p (Term_of_factor_nd y) (appendTerm_nd p).
Definition minus_factor_nd (y : Factor) : res Term := c <- Frac_of_int (-1) ;; Term_of_nd c y.
Definition factor_sub_nd (x y : Factor) : res Poly :=
  p <- Poly_of_factor_nd x ;; t <- minus_factor_nd y ;; final (appendTerm_nd p t).
Definition term_sub_nd (x y : Term) : res Poly :=
  p <- Poly_of_term x ;; ty <- final (negate_term_nd y) ;; final (appendTerm_nd p ty).
Definition poly_sub_assign_nd (p : Poly) (y : Factor) : outcome Poly :=
  eval p (minus_factor_nd y) (appendTerm_nd p).
