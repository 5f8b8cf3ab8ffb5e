(** Compound assignments of Vec, Mat, Term and Poly with elements that allocate (Int,
    Frac) when memory runs out: the object they leave behind if a request for memory
    fails with std::bad_alloc -- src/Vec.hpp:167-193, src/Mat.hpp:171-198, 214-235,
    src/Poly.hpp:65, 92-101, 180-189, 241-254, 268-289.

    They are made of compound assignments to their elements, each as in IntAllocModel.v and
    FracAllocModel.v, with the same requests and simplifications; a copy of an element, an
    exception object and a new node of a std::map or std::list each count as one request. A
    std::map or std::list is not changed if the request for a node fails. Comparisons of
    Ints and of names, and list::merge, allocate nothing. *)
From Verif Require Import Base IntModel IOModel FracModel ElemModel VecModel MatModel PolyModel AllocModel IntAllocModel FracAllocModel.
Local Open Scope list_scope.
Local Open Scope nat_scope.

(** The object of type S and the number of requests so far; what is left, and how it
    ended. [step] is [cstep Int], [fstep] is [cstep Frac]. *)
Definition cstep (S A : Type) : Type := S -> nat -> S * nat * ending A.
Reserved Notation "x <~ m ;; k" (at level 61, m at next level, right associativity).
Definition cnow {S A B} (m : cstep S A) (k : A -> cstep S B) : cstep S B := fun s n =>
  match m s n with
  | (s, n, Fin (Ok a)) => k a s n
  | (s, n, Fin m) => (s, n, Fin (_ <- m ;; UB))
  | (s, n, NoMem) => (s, n, NoMem)
  end.
Notation "x <~ m ;; k" := (cnow m (fun x => k)).
Definition cjust {S A} (m : res A) : cstep S A := fun s n => (s, n, Fin m).
Definition chere {S} : cstep S S := fun s n => (s, n, Fin (Ok s)).
Definition cput {S} (s' : S) : cstep S unit := fun s n => (s', n, Fin (Ok tt)).
(** for (size_t i = a; i < a + n; ++i) body *)
Fixpoint for_m {S} (n a : nat) (body : nat -> cstep S unit) : cstep S unit :=
  match n with
  | O => cjust (Ok tt)
  | Datatypes.S n' => _ <~ body a ;; for_m n' (Datatypes.S a) body
  end.

Section Runs.
Context (fails : nat -> bool) (half : list Z -> list Z -> list Z).
Definition cmay {A S} (m : res A) : cstep S A := fun s n => (s, Datatypes.S n, if fails n then NoMem else Fin m).

Section Loops.
Context {T : Type}.
(** x op= y on elements; [None]: y is x *)
Implicit Type op : option T -> cstep T unit.

(** ** Vec *)
Definition at_m (i : nat) (p : cstep T unit) : cstep (list T) unit := fun x n =>
  match nth_error x i with
  | Some e => let '(z, n, r) := p e n in (replace x i z, n, r)
  | None => (x, n, Fin UB)
  end.
(** x += y, x -= y -- src/Vec.hpp:167-181; y[i] is a copy (31) *)
Definition vec_assign_m op (y : option (list T)) : cstep (list T) unit :=
  x <~ chere ;;
  if negb (length x =? length (rd x y)) then cmay (Throw InvalidArgument)
  else for_m (length x) 0 (fun i => d <~ chere ;; e <~ cmay (get_at (rd d y) i) ;; at_m i (op (Some e))).
(** x *= a, x /= a -- src/Vec.hpp:183-193; a is a reference *)
Definition scale_assign_m op (a : @scalar T) : cstep (list T) unit :=
  x <~ chere ;;
  for_m (length x) 0 (fun i =>
    match a with
    | Val v => at_m i (op (Some v))
    | Elem k => if i =? k then at_m i (op None) else d <~ chere ;; v <~ cjust (get_at d k) ;; at_m i (op (Some v))
    end).

(** ** Mat *)
Definition entry_m (i j : nat) (p : cstep T unit) : cstep (Mat T) unit :=
  m <~ chere ;;
  e <~ cjust (entry m i j) ;;
  fun m n => let '(z, n, r) := p e n in (fst (set_entry m i j z), n, r).
Definition for2_m {S} (r c : nat) (body : nat -> nat -> cstep S unit) : cstep S unit := for_m r 0 (fun i => for_m c 0 (body i)).
(** a += b, a -= b -- src/Mat.hpp:171-178, 191-198; b(i, j) is a copy (38) *)
Definition mat_assign_m op (b : option (Mat T)) : cstep (Mat T) unit :=
  a <~ chere ;;
  if negb (same_dims a (rd a b)) then cmay (Throw DomainError)
  else for2_m (rows a) (cols a) (fun i j => d <~ chere ;; y <~ cmay (entry (rd d b) i j) ;; entry_m i j (op (Some y))).
(** m *= s, m /= s -- src/Mat.hpp:214-219, 230-235 *)
Definition mat_scale_assign_m op (s : @mscalar T) : cstep (Mat T) unit :=
  m <~ chere ;;
  for2_m (rows m) (cols m) (fun i j =>
    match s with
    | MVal a => entry_m i j (op (Some a))
    | MElem p q => if (i =? p) && (j =? q) then entry_m i j (op None)
                   else d <~ chere ;; a <~ cjust (entry d p q) ;; entry_m i j (op (Some a))
    end).
End Loops.

(** ** Term *)
Definition on_power (i : nat) (p : cstep Int unit) : cstep Term unit := fun t n =>
  match nth_error (factors t) i with
  | Some (k, f) => let '(z, n, r) := p (power f) n in (mkTerm (coeff t) (replace (factors t) i (k, mkFactor (fid f) z)), n, r)
  | None => (t, n, Fin UB)
  end.
Definition on_coeff_m (p : cstep Frac unit) : cstep Term unit := fun t n =>
  let '(z, n, r) := p (coeff t) n in (mkTerm z (factors t), n, r).
(** Term::appendFactor -- src/Poly.hpp:92-101; [same]: the argument is the Factor stored here *)
Definition appendFactor_m (x : Factor) (same : bool) : cstep Term unit :=
  t <~ chere ;;
  match map_find (factors t) (fid x) with
  | None => _ <~ cmay (Ok tt) ;; cput (mkTerm (coeff t) (map_insert (factors t) (fid x) x))
  | Some i => on_power i (add_assign_m fails half (if same then None else Some (power x)))
  end.
Fixpoint appendFactors_m (l : list Factor) : cstep Term unit :=
  match l with
  | [] => cjust (Ok tt)
  | x :: l' => _ <~ appendFactor_m x false ;; appendFactors_m l'
  end.
Fixpoint append_own_m (fuel i : nat) : cstep Term unit :=
  match fuel with
  | O => cjust OutOfFuel
  | S f =>
      t <~ chere ;;
      match nth_error (factors t) i with
      | None => cjust (Ok tt)
      | Some e => _ <~ appendFactor_m (snd e) true ;; append_own_m f (S i)
      end
  end.
(** operator*= -- src/Poly.hpp:180-189; [None]: the operand is the Term itself *)
Definition term_mul_assign_m (y : option Term) : cstep Term unit :=
  match y with
  | Some y => _ <~ appendFactors_m (map snd (factors y)) ;; on_coeff_m (Fm_mul fails half (Some (coeff y)))
  | None => t <~ chere ;; _ <~ append_own_m (S (length (factors t))) 0 ;; on_coeff_m (Fm_mul fails half None)
  end.
(** negate -- src/Poly.hpp:65 *)
Definition negate_term_m : cstep Term unit := m <~ cmay (Int_of_int64 (-1) 0) ;; on_coeff_m (FIm_mul fails half m).

(** ** Poly *)
Definition on_term (i : nat) (p : cstep Term unit) : cstep Poly unit := at_m i p.
(** Poly::appendTerm -- src/Poly.hpp:241-249 *)
Definition appendTerm_m (x : Term) : cstep Poly unit :=
  p <~ chere ;;
  ab <~ cjust (find_place p x) ;;
  match snd ab with
  | [] => cjust UB
  | t :: rest =>
      e <~ cjust (term_eq t x) ;;
      if e : bool then on_term (length (fst ab)) (on_coeff_m (Fm_addsub fails half op_add (Some (coeff x))))
      else _ <~ cmay (Ok tt) ;; cput (fst ab ++ x :: t :: rest)
  end.
(** += and -= -- src/Poly.hpp:268-270, 287-289 *)
Definition poly_add_assign_m (y : Factor) : cstep Poly unit := t <~ cmay (Term_of_factor y) ;; appendTerm_m t.
Definition poly_sub_assign_m (y : Factor) : cstep Poly unit := t <~ cmay (minus_factor y) ;; appendTerm_m t.
(** appendTerms -- src/Poly.hpp:251-254 *)
Definition appendTerms_m (l : list Term) : cstep Poly unit :=
  c <~ cmay (Ok l) ;; p <~ chere ;; r <~ cjust (appendTerms p c) ;; cput r.
End Runs.
