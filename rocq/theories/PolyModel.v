(** Model of src/Poly.hpp: Factor, Term and Poly.

    A [std::map<string, Factor>] is the list of its (key, value) pairs in
    increasing key order, a [std::list<Term>] is a list, an iterator is the
    position it denotes; strings are lists of characters. An operation that works in
    place returns the final object and how control left ([outcome], ElemModel.v).
    The members [factors] and [terms] are private and never handed out, so a
    Factor or Term argument is a separate object, except in t *= t. *)
From Coq Require Import Ascii String.
From Verif Require Import Base IntModel IOModel FracModel ElemModel.
Local Open Scope Z_scope.
Local Open Scope list_scope.

(** src/Poly.hpp:15-29 *)
Record Factor := mkFactor { fid : chars; power : Int }.

(** operator< on std::string: lexicographic, characters as unsigned char *)
Fixpoint str_lt (a b : chars) : bool :=
  match a, b with
  | _, [] => false
  | [], _ :: _ => true
  | c :: a', d :: b' => if code c <? code d then true else if code c =? code d then str_lt a' b' else false
  end.
(** operator== on std::string *)
Fixpoint str_eq (a b : chars) : bool :=
  match a, b with
  | [], [] => true
  | c :: a', d :: b' => Ascii.eqb c d && str_eq a' b'
  | _, _ => false
  end.

(** operator< -- src/Poly.hpp:38-44 *)
Definition factor_lt (x y : Factor) : res bool :=
  if str_lt (fid x) (fid y) then Ok true
  else if str_eq (fid x) (fid y) then op_lt (power x) (power y)
  else Ok false.
(** operator== -- src/Poly.hpp:46-48, operator!= -- 24 *)
Definition factor_eq (x y : Factor) : res bool :=
  if str_eq (fid x) (fid y) then op_eq (power x) (power y) else Ok false.
Definition factor_ne (x y : Factor) : res bool := e <- factor_eq x y ;; Ok (negb e).
(** operator<< -- src/Poly.hpp:31-36 *)
Definition factor_print (o : ostream) (x : Factor) : res ostream :=
  e <- equals_int32 (power x) 1 ;;
  if e : bool then Ok (put o (fid x))
  else Ok (Int_print (put (put o (fid x)) ["^"%char]) (power x)).

(** src/Poly.hpp:54-83 *)
Definition fmap := list (chars * Factor).
Record Term := mkTerm { coeff : Frac; factors : fmap }.

(** std::map::find: the position of the key equivalent to k, if any *)
Fixpoint map_find (m : fmap) (k : chars) : option nat :=
  match m with
  | [] => None
  | (k', _) :: m' =>
      if negb (str_lt k' k) && negb (str_lt k k') then Some 0%nat
      else match map_find m' k with Some i => Some (S i) | None => None end
  end.
(** std::map::insert: does nothing when an equivalent key is present *)
Fixpoint map_insert (m : fmap) (k : chars) (x : Factor) : fmap :=
  match m with
  | [] => [(k, x)]
  | (k', x') :: m' =>
      if str_lt k k' then (k, x) :: m
      else if str_lt k' k then (k', x') :: map_insert m' k x
      else m
  end.

(** Term::appendFactor -- src/Poly.hpp:92-101. [same]: the argument is the
    Factor stored in this Term under its key. *)
Definition appendFactor (t : Term) (x : Factor) (same : bool) : outcome Term :=
  match map_find (factors t) (fid x) with
  | None => done (mkTerm (coeff t) (map_insert (factors t) (fid x) x))
  | Some i =>
      eval t (get_at (factors t) i) (fun e =>
      eval t (add_assign (power (snd e)) (if same then None else Some (power x))) (fun p =>
      done (mkTerm (coeff t) (replace (factors t) i (fst e, mkFactor (fid (snd e)) p)))))
  end.

(** Term(const Factor&) -- 59, Term(const Frac&, const Factor&) -- 60,
    Term(const Frac&, const vector<Factor>&) -- 61, 85-89 *)
Fixpoint appendFactors (t : Term) (l : list Factor) : outcome Term :=
  match l with
  | [] => done t
  | x :: l' => andthen (appendFactor t x false) (fun t => appendFactors t l')
  end.
Definition Term_of_factor (x : Factor) : res Term :=
  c <- Frac_of_int 1 ;; final (appendFactor (mkTerm c []) x false).
Definition Term_of (c : Frac) (x : Factor) : res Term := final (appendFactor (mkTerm c []) x false).
Definition Term_of_vector (c : Frac) (l : list Factor) : res Term := final (appendFactors (mkTerm c []) l).

(** coeff op= ... as a statement on the Term *)
Definition on_coeff (t : Term) (p : fst_res) : outcome Term := (mkTerm (fst p) (factors t), snd p).
(** negate -- src/Poly.hpp:65. -1 becomes an Int: Frac(int) is explicit, Int's
    constructor is not, so this is operator*=(Frac&, const Int&). *)
Definition negate_term (t : Term) : outcome Term :=
  eval t (Int_of_int64 (-1) 0) (fun m => on_coeff t (FI_mul_assign (coeff t) m)).

(** operator* -- src/Poly.hpp:71, 159-178 *)
Definition factor_mul (x y : Factor) : res Term :=
  t <- Term_of_factor x ;; final (appendFactor t y false).
Definition term_mul_factor (x : Term) (y : Factor) : res Term := final (appendFactor x y false).
Definition factor_mul_term (x : Factor) (y : Term) : res Term := term_mul_factor y x.
Definition term_mul (x y : Term) : res Term :=
  final (andthen (appendFactors x (map snd (factors y))) (fun t => on_coeff t (F_mul_assign (coeff t) (Some (coeff y))))).
(** operator*= -- src/Poly.hpp:180-189. In t *= t the loop walks over the very
    map it modifies; the position of the iterator counts from the beginning. *)
Definition term_mul_assign_factor (x : Term) (y : Factor) : outcome Term := appendFactor x y false.
Fixpoint append_own (fuel i : nat) (t : Term) : outcome Term :=
  match fuel with
  | O => (t, OutOfFuel)
  | S f =>
      match nth_error (factors t) i with
      | None => done t
      | Some e => andthen (appendFactor t (snd e) true) (append_own f (S i))
      end
  end.
Definition term_mul_assign (x : Term) (y : option Term) : outcome Term :=
  match y with
  | Some y => andthen (appendFactors x (map snd (factors y))) (fun t => on_coeff t (F_mul_assign (coeff t) (Some (coeff y))))
  | None => andthen (append_own (S (length (factors x))) 0 x) (fun t => on_coeff t (F_mul_assign (coeff t) None))
  end.

(** operator< -- src/Poly.hpp:129-144 *)
Fixpoint any_less (xs ys : fmap) : res bool :=
  match xs, ys with
  | (_, x) :: xs', (_, y) :: ys' => l <- factor_lt x y ;; if l : bool then Ok true else any_less xs' ys'
  | _, _ => Ok false
  end.
Definition term_lt (x y : Term) : res bool :=
  if (length (factors x) <? length (factors y))%nat then Ok true else any_less (factors x) (factors y).
(** operator== -- src/Poly.hpp:147-157 *)
Fixpoint all_equal (xs ys : fmap) : res bool :=
  match xs, ys with
  | (_, x) :: xs', (_, y) :: ys' => n <- factor_ne x y ;; if n : bool then Ok false else all_equal xs' ys'
  | _, _ => Ok true
  end.
Definition term_eq (x y : Term) : res bool :=
  if negb (length (factors x) =? length (factors y))%nat then Ok false else all_equal (factors x) (factors y).

(** operator<< -- src/Poly.hpp:103-123; FRAC_ZERO and FRAC_ONE -- 50-51 *)
Definition TIMES : chars := list_ascii_of_string " * ".
Fixpoint print_factors (o : ostream) (l : list Factor) : res ostream :=
  match l with
  | [] => Ok o
  | x :: l' => o <- factor_print (put o TIMES) x ;; print_factors o l'
  end.
Definition term_print (o : ostream) (t : Term) : res ostream :=
  zero <- Frac_of_int 0 ;;
  one <- Frac_of_int 1 ;;
  z <- F_eq (coeff t) zero ;;
  if z : bool then Ok (put o ["0"%char])
  else if (length (factors t) =? 0)%nat then
    u <- F_eq (coeff t) one ;;
    Ok (if u : bool then put o ["1"%char] else Frac_print o (coeff t))
  else
    u <- F_eq (coeff t) one ;;
    if u : bool then
      match map snd (factors t) with
      | [] => UB
      | x :: l => o <- factor_print o x ;; print_factors o l
      end
    else print_factors (Frac_print o (coeff t)) (map snd (factors t)).

(** src/Poly.hpp:192-216 *)
Definition Poly := list Term.

(** Poly::appendTerm -- src/Poly.hpp:241-249: the iterator, as the terms before
    it and those from it on; dereferencing end() is undefined *)
Fixpoint find_place (l : list Term) (x : Term) : res (list Term * list Term) :=
  match l with
  | [] => Ok ([], [])
  | t :: l' =>
      lt <- term_lt t x ;;
      if lt : bool then ' (a, b) <- find_place l' x ;; Ok (t :: a, b) else Ok ([], l)
  end.
Definition appendTerm (p : Poly) (x : Term) : outcome Poly :=
  eval p (find_place p x) (fun ab =>
  match snd ab with
  | [] => (p, UB)
  | t :: rest =>
      eval p (term_eq t x) (fun e =>
      if e : bool then
        let '(t', r) := on_coeff t (F_add_assign (coeff t) (Some (coeff x))) in (fst ab ++ t' :: rest, r)
      else done (fst ab ++ x :: t :: rest))
  end).

(** constructors -- src/Poly.hpp:197-200, 219-227 *)
Definition Poly_of_factor (x : Factor) : res Poly := t <- Term_of_factor x ;; Ok [t].
Definition Poly_of_term (x : Term) : res Poly := Ok [x].
Fixpoint append_each (p : Poly) (l : list Term) : outcome Poly :=
  match l with
  | [] => done p
  | x :: l' => andthen (appendTerm p x) (fun p => append_each p l')
  end.
Definition Poly_of_terms (l : list Term) : res Poly := final (append_each [] l).
Fixpoint append_each_factor (p : Poly) (l : list Factor) : outcome Poly :=
  match l with
  | [] => done p
  | x :: l' => eval p (Term_of_factor x) (fun t => andthen (appendTerm p t) (fun p => append_each_factor p l'))
  end.
Definition Poly_of_factors (l : list Factor) : res Poly := final (append_each_factor [] l).
(** numTerms -- src/Poly.hpp:204 *)
Definition numTerms (p : Poly) : nat := length p.

(** operators -- src/Poly.hpp:256-289 *)
Definition factor_add (x y : Factor) : res Poly :=
  tx <- Term_of_factor x ;; p <- Poly_of_term tx ;; t <- Term_of_factor y ;; final (appendTerm p t).
Definition term_add (x y : Term) : res Poly := p <- Poly_of_term x ;; final (appendTerm p y).
Definition poly_add_assign (p : Poly) (y : Factor) : outcome Poly :=
  eval p (Term_of_factor y) (appendTerm p).
Definition minus_factor (y : Factor) : res Term := c <- Frac_of_int (-1) ;; Term_of c y.
Definition factor_sub (x y : Factor) : res Poly :=
  p <- Poly_of_factor x ;; t <- minus_factor y ;; final (appendTerm p t).
Definition term_sub (x y : Term) : res Poly :=
  p <- Poly_of_term x ;; ty <- final (negate_term y) ;; final (appendTerm p ty).
Definition poly_sub_assign (p : Poly) (y : Factor) : outcome Poly :=
  eval p (minus_factor y) (appendTerm p).

(** appendTerms -- src/Poly.hpp:251-254. std::list::merge needs both lists
    sorted: no element less than one before it; otherwise undefined. The loop is
    libstdc++'s: take from the second list only what is less. *)
Fixpoint none_less (x : Term) (l : list Term) : res bool :=
  match l with
  | [] => Ok true
  | y :: l' => b <- term_lt y x ;; if b : bool then Ok false else none_less x l'
  end.
Fixpoint is_sorted (l : list Term) : res bool :=
  match l with
  | [] => Ok true
  | x :: l' => b <- none_less x l' ;; if b : bool then is_sorted l' else Ok false
  end.
Fixpoint merge_loop (fuel : nat) (a b : list Term) : res (list Term) :=
  match fuel with
  | O => OutOfFuel
  | S f =>
      match a, b with
      | [], _ => Ok b
      | _, [] => Ok a
      | x :: a', y :: b' =>
          l <- term_lt y x ;;
          if l : bool then r <- merge_loop f a b' ;; Ok (y :: r)
          else r <- merge_loop f a' b ;; Ok (x :: r)
      end
  end.
Definition appendTerms (p : Poly) (l : list Term) : res Poly :=
  sp <- is_sorted p ;;
  sl <- is_sorted l ;;
  if sp && sl then merge_loop (S (length p + length l)) p l else UB.

(** operator<< -- src/Poly.hpp:229-239 *)
Definition PLUS : chars := list_ascii_of_string " + ".
Fixpoint print_terms (o : ostream) (l : list Term) : res ostream :=
  match l with
  | [] => Ok o
  | t :: l' => o <- term_print (put o PLUS) t ;; print_terms o l'
  end.
Definition poly_print (o : ostream) (p : Poly) : res ostream :=
  match p with
  | [] => Ok o
  | t :: l => o <- term_print o t ;; print_terms o l
  end.
