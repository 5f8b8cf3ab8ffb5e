(** Model of class template Mat: src/Mat.hpp.

    Dimensions are natural numbers: rows * cols is assumed not to overflow size_t,
    and the conversion of an index to int in first_minor to be exact; see SizeModel
    and C100 for what happens otherwise. Allocation does not fail. setEntries(const std::vector<T>&) (line 31) is declared but has
    no definition, so it is not modelled. *)
From Coq Require Import Ascii.
From Verif Require Import Base IntModel IOModel ElemModel VecModel.
Local Open Scope list_scope.
Local Open Scope nat_scope.

(** rows, cols and data -- src/Mat.hpp:81-83. [None] is an element that holds
    no value yet (new T[n] for a built-in T); reading it is undefined. *)
Record Mat (T : Type) := mkMat { rows : nat; cols : nat; data : list (option T) }.
Arguments mkMat {T} _ _ _.
Arguments rows {T} _.
Arguments cols {T} _.
Arguments data {T} _.

(** p[k] for an array p *)
Definition read {T} (p : list (option T)) (k : nat) : res T :=
  match nth_error p k with Some (Some x) => Ok x | _ => UB end.

Section Mat.
Context {T : Type} (E : ops T).
Local Notation M := (Mat T).

(** entry(i, j) and operator() -- src/Mat.hpp:36-38, offset -- 91-93 *)
Definition offset (m : M) (i j : nat) : nat := i * cols m + j.
Definition entry (m : M) (i j : nat) : res T := read (data m) (offset m i j).
Definition set_entry (m : M) (i j : nat) (x : T) : outcome M :=
  if offset m i j <? length (data m) then done (mkMat (rows m) (cols m) (replace (data m) (offset m i j) (Some x)))
  else (m, UB).
(** entry(i, j) op= y, where y is another object ([None]: the entry itself) *)
Definition assign_entry (op : T -> option T -> res T) (m : M) (i j : nat) (y : option T) : outcome M :=
  eval m (x <- entry m i j ;; op x y) (fun z => set_entry m i j z).

(** for i < r, for j < c *)
Definition for2 {S} (r c : nat) (body : nat -> nat -> S -> outcome S) (s : S) : outcome S :=
  for_ r 0 (fun i => for_ c 0 (fun j => body i j)) s.
(** for all i, j: m(i, j) = f(i, j) *)
Definition fill (r c : nat) (f : nat -> nat -> res T) (m : M) : outcome M :=
  for2 r c (fun i j m => eval m (f i j) (fun x => set_entry m i j x)) m.

(** Mat(rows, cols) -- src/Mat.hpp:113-116 *)
Definition Mat_new (r c : nat) : M := mkMat r c (repeat (fresh E) (r * c)).
(** setEntries -- src/Mat.hpp:135-149 *)
Definition setEntries_ptr (m : M) (vals : list (option T)) (size : nat) : outcome M :=
  if size <? rows m * cols m then (m, Throw DomainError)
  else fill (rows m) (cols m) (fun i j => read vals (offset m i j)) m.
Definition mat_setEntries_val (m : M) (v : T) : outcome M := fill (rows m) (cols m) (fun _ _ => Ok v) m.
(** the other constructors -- src/Mat.hpp:107-111, 118-128 *)
Definition Mat_copy (x : M) : res M := final (setEntries_ptr (Mat_new (rows x) (cols x)) (data x) (rows x * cols x)).
Definition Mat_val (r c : nat) (v : T) : res M := final (mat_setEntries_val (Mat_new r c) v).
Definition Mat_array (vals : list (option T)) (r c : nat) : res M := final (setEntries_ptr (Mat_new r c) vals (r * c)).

Definition same_dims (a b : M) : bool := (rows a =? rows b) && (cols a =? cols b).
(** unary - -- src/Mat.hpp:151-158 *)
Definition M_neg (a : M) : res M :=
  final (fill (rows a) (cols a) (fun i j => x <- entry a i j ;; neg E x) (Mat_new (rows a) (cols a))).
(** a + b, a - b -- src/Mat.hpp:160-169, 180-189 *)
Definition mat_binary (op : T -> T -> res T) (a b : M) : res M :=
  if negb (same_dims a b) then Throw DomainError
  else final (fill (rows a) (cols a) (fun i j => x <- entry a i j ;; y <- entry b i j ;; op x y) (Mat_new (rows a) (cols a))).
Definition M_add := mat_binary (add E).
Definition M_sub := mat_binary (sub E).
(** a += b, a -= b -- src/Mat.hpp:171-178, 191-198; b is const, so b(i, j) is a
    copy. [None]: b is a. *)
Definition mat_assign (op : T -> option T -> res T) (a : M) (b : option M) : outcome M :=
  if negb (same_dims a (rd a b)) then (a, Throw DomainError)
  else for2 (rows a) (cols a) (fun i j d => eval d (entry (rd d b) i j) (fun y => assign_entry op d i j (Some y))) a.
Definition M_add_assign := mat_assign (addA E).
Definition M_sub_assign := mat_assign (subA E).
(** s * m, m * s, m / s -- src/Mat.hpp:200-212, 221-228 *)
Definition M_scale (s : T) (m : M) : res M :=
  final (fill (rows m) (cols m) (fun i j => x <- entry m i j ;; mul E s x) (Mat_new (rows m) (cols m))).
Definition M_scale_r (m : M) (s : T) : res M := M_scale s m.
Definition M_div (m : M) (s : T) : res M :=
  final (fill (rows m) (cols m) (fun i j => x <- entry m i j ;; div E x s) (Mat_new (rows m) (cols m))).
(** m *= s, m /= s -- src/Mat.hpp:214-219, 230-235; s may be an entry of m *)
Inductive mscalar := MVal (a : T) | MElem (p q : nat).
Definition mat_scale_assign (op : T -> option T -> res T) (m : M) (s : mscalar) : outcome M :=
  for2 (rows m) (cols m) (fun i j d =>
    match s with
    | MVal a => assign_entry op d i j (Some a)
    | MElem p q => if (i =? p) && (j =? q) then assign_entry op d i j None
                   else eval d (entry d p q) (fun a => assign_entry op d i j (Some a))
    end) m.
Definition M_mul_assign := mat_scale_assign (mulA E).
Definition M_div_assign := mat_scale_assign (divA E).

(** a * b -- src/Mat.hpp:237-248 *)
Definition M_product (a b : M) : res M :=
  if negb (cols a =? rows b) then Throw DomainError
  else r <- Mat_val (rows a) (cols b) (of_int E 0) ;;
       final (for_ (rows a) 0 (fun i => for_ (cols a) 0 (fun k => for_ (cols b) 0 (fun j d =>
         eval d (x <- entry a i k ;; y <- entry b k j ;; mul E x y) (fun p => assign_entry (addA E) d i j (Some p))))) r).
(** a *= b -- src/Mat.hpp:250-261: the same loops, then swap(a, r) *)
Definition M_product_assign (a : M) (b : option M) : outcome M :=
  match M_product a (rd a b) with
  | Ok r => done r
  | m => (a, _ <- m ;; Ok tt)
  end.

(** == and != -- src/Mat.hpp:263-277 *)
Fixpoint all_ (n a : nat) (p : nat -> res bool) : res bool :=
  match n with
  | O => Ok true
  | S n' => b <- p a ;; if b : bool then all_ n' (S a) p else Ok false
  end.
Definition M_eq (a b : M) : res bool :=
  if negb (same_dims a b) then Ok false
  else all_ (rows a) 0 (fun i => all_ (cols a) 0 (fun j => x <- entry a i j ;; y <- entry b i j ;; eqb E x y)).
Definition M_ne (a b : M) : res bool := e <- M_eq a b ;; Ok (negb e).

(** first_minor -- src/Mat.hpp:279-291. For a matrix without rows or columns,
    rows - 1 wraps around; the loops then leave the array (or run 2^64 times), and
    the model counts this as undefined. *)
Definition skip (i m : nat) : nat := if i <=? m then m + 1 else m.
Definition first_minor (x : M) (i j : nat) : res M :=
  if (rows x =? 0) || (cols x =? 0) then UB
  else final (fill (rows x - 1) (cols x - 1) (fun m n => entry x (skip i m) (skip j n)) (Mat_new (rows x - 1) (cols x - 1))).
(** cofactor -- src/Mat.hpp:293-298 *)
Definition cofactor (x : M) (i j : nat) : res M :=
  m <- first_minor x i j ;; if (i + j) mod 2 =? 1 then M_neg m else Ok m.

(** data[0] * data[3] - data[1] * data[2] -- src/Mat.hpp:307, 329, 364 *)
Definition det2 (m : M) : res T :=
  a <- read (data m) 0 ;; d <- read (data m) 3 ;; p <- mul E a d ;;
  b <- read (data m) 1 ;; c <- read (data m) 2 ;; q <- mul E b c ;; sub E p q.
(** row_cofactor_expansion, col_cofactor_expansion -- src/Mat.hpp:300-342; [fuel]
    bounds the depth of the recursion. *)
Definition expansion (rec : M -> res T) (m : M) (n : nat) (ent : nat -> res T) (mnr : nat -> res M) : res T :=
  if negb (rows m =? cols m) then Throw DomainError
  else if rows m =? 1 then read (data m) 0
  else if rows m =? 2 then det2 m
  else final (for_ n 0 (fun k result =>
    eval result (ent k) (fun x => eval result (eqb E x (of_int E 0)) (fun z : bool =>
      if z then done result
      else eval result (s <- mnr k ;; d <- rec s ;; p <- mul E x d ;;
                        if k mod 2 =? 1 then subA E result (Some p) else addA E result (Some p)) done))) (of_int E 0)).
Fixpoint row_expansion (fuel : nat) (m : M) : res T :=
  match fuel with
  | O => OutOfFuel
  | S fuel' => expansion (row_expansion fuel') m (cols m) (fun j => entry m 0 j) (fun j => first_minor m 0 j)
  end.
Fixpoint col_expansion (fuel : nat) (m : M) : res T :=
  match fuel with
  | O => OutOfFuel
  | S fuel' => expansion (col_expansion fuel') m (rows m) (fun i => entry m i 0) (fun i => first_minor m i 0)
  end.
Definition row_cofactor_expansion (m : M) : res T := row_expansion (S (rows m)) m.
Definition col_cofactor_expansion (m : M) : res T := col_expansion (S (rows m)) m.

(** swap_rows -- src/Mat.hpp:412-418 *)
Definition swap_rows (m : M) (a b : nat) : outcome M :=
  if a =? b then done m
  else for_ (cols m) 0 (fun k d =>
    eval d (entry d a k) (fun x => eval d (entry d b k) (fun y =>
      andthen (set_entry d a k y) (fun d => set_entry d b k x)))) m.

(** The search for a non-zero pivot in rows r, r+1, ..., moving to the next column
    when there is none: while loop -- src/Mat.hpp:373-382, 428-437. [None]: the
    columns are exhausted. *)
Fixpoint find_pivot (fuel : nat) (m : M) (r i pivot : nat) : res (option (nat * nat)) :=
  match fuel with
  | O => OutOfFuel
  | S fuel' =>
      x <- entry m i pivot ;; z <- eqb E x (of_int E 0) ;;
      if z : bool then
        if rows m =? i + 1 then
          if cols m =? pivot + 1 then Ok None else find_pivot fuel' m r r (pivot + 1)
        else find_pivot fuel' m r (i + 1) pivot
      else Ok (Some (i, pivot))
  end.
Definition pivot_fuel (m : M) : nat := S (rows m * cols m).

(** determinant -- src/Mat.hpp:357-403. [det_rows n] is the loop from row r with n
    rows left. *)
Definition det_clear (tmp : M) (r pivot : nat) : outcome M :=
  for_to (pivot + 1) (rows tmp) (fun i tmp =>
    if i =? r then done tmp
    else eval tmp (entry tmp i pivot) (fun val =>
      for_to pivot (cols tmp) (fun j tmp =>
        eval tmp (a <- entry tmp r j ;; p <- mul E val a ;; b <- entry tmp r pivot ;; div E p b)
             (fun q => assign_entry (subA E) tmp i j (Some q))) tmp)) tmp.
Fixpoint det_rows (n r : nat) (tmp : M) (factor : T) (pivot : nat) : res (M * T) :=
  match n with
  | O => Ok (tmp, factor)
  | S n' =>
      if cols tmp <=? pivot then Ok (tmp, factor)
      else o <- find_pivot (pivot_fuel tmp) tmp r r pivot ;;
        match o with
        | None => Ok (tmp, factor)
        | Some (i, pivot) =>
            ' (tmp, factor) <- (if i =? r then Ok (tmp, factor)
                                else t <- final (swap_rows tmp i r) ;; f <- mulA E factor (Some (of_int E (-1))) ;; Ok (t, f)) ;;
            tmp <- final (det_clear tmp r pivot) ;;
            det_rows n' (S r) tmp factor (pivot + 1)
        end
  end.
Definition determinant (m : M) : res T :=
  if negb (rows m =? cols m) then Throw DomainError
  else if rows m =? 1 then read (data m) 0
  else if rows m =? 2 then det2 m
  else tmp <- Mat_copy m ;;
       ' (tmp, factor) <- det_rows (rows tmp) 0 tmp (of_int E 1) 0 ;;
       prod <- final (for_ (rows tmp) 0 (fun i p => eval p (x <- entry tmp i i ;; mulA E p (Some x)) done) (of_int E 1)) ;;
       div E prod factor.

(** inplace_rref and rref -- src/Mat.hpp:405-410, 420-453 *)
Definition rref_clear (m : M) (r pivot : nat) : outcome M :=
  for_ (rows m) 0 (fun i m =>
    if i =? r then done m
    else eval m (entry m i pivot) (fun val =>
      for_ (cols m) 0 (fun j m =>
        eval m (a <- entry m r j ;; mul E val a) (fun p => assign_entry (subA E) m i j (Some p))) m)) m.
Fixpoint rref_rows (n r pivot : nat) (m : M) : outcome M :=
  match n with
  | O => done m
  | S n' =>
      if cols m <=? pivot then done m
      else eval m (find_pivot (pivot_fuel m) m r r pivot) (fun o =>
        match o with
        | None => done m
        | Some (i, pivot) =>
            andthen (swap_rows m i r) (fun m =>
            eval m (entry m r pivot) (fun val =>
            andthen (for_ (cols m) 0 (fun j m => assign_entry (divA E) m r j (Some val)) m) (fun m =>
            andthen (rref_clear m r pivot) (fun m =>
            rref_rows n' (S r) (pivot + 1) m))))
        end)
  end.
Definition inplace_rref (m : M) : outcome M := rref_rows (rows m) 0 0 m.
Definition rref (m : M) : res M := r <- Mat_copy m ;; final (inplace_rref r).

(** diagonalMatrix, identityMatrix, augmentedMatrix -- src/Mat.hpp:475-503 *)
Definition diagonalMatrix (vals : list (option T)) (size : nat) : res M :=
  r <- Mat_val size size (of_int E 0) ;;
  final (for_ size 0 (fun i r => eval r (read vals i) (fun x => set_entry r i i x)) r).
Definition identityMatrix (size : nat) : res M :=
  r <- Mat_val size size (of_int E 0) ;;
  final (for_ size 0 (fun i r => set_entry r i i (of_int E 1)) r).
Definition augmentedMatrix (a b : M) : res M :=
  if negb (rows a =? rows b) then Throw DomainError
  else final (for_ (rows a) 0 (fun i r =>
    andthen (for_ (cols a) 0 (fun j r => eval r (entry a i j) (fun x => set_entry r i j x)) r)
            (for_ (cols b) 0 (fun j r => eval r (entry b i j) (fun x => set_entry r i (j + cols a) x))))
    (Mat_new (rows a) (cols a + cols b))).

(** inverse -- src/Mat.hpp:455-473 *)
Definition inverse (m : M) : res M :=
  if negb (rows m =? cols m) then Throw DomainError
  else identity <- identityMatrix (rows m) ;;
       r <- augmentedMatrix m identity ;;
       r <- final (inplace_rref r) ;;
       final (for2 (rows m) (cols m) (fun i j result =>
         eval result (x <- entry r i j ;; y <- entry identity i j ;; eqb E x y) (fun e : bool =>
           if e then eval result (entry r i (j + rows m)) (fun x => set_entry result i j x)
           else (result, Throw DomainError))) (Mat_new (rows m) (cols m))).

(** trace, transpose -- src/Mat.hpp:505-522 *)
Definition trace (m : M) : res T :=
  if negb (rows m =? cols m) then Throw DomainError
  else final (for_ (rows m) 0 (fun i t => eval t (x <- entry m i i ;; addA E t (Some x)) done) (of_int E 0)).
Definition transpose (m : M) : res M :=
  final (for2 (rows m) (cols m) (fun i j r => eval r (entry m i j) (fun x => set_entry r j i x)) (Mat_new (cols m) (rows m))).

(** operator= -- src/Mat.hpp:69-79: a copy, swapped in *)
Definition M_assign (this : M) (a : option M) : outcome M :=
  match Mat_copy (rd this a) with Ok r => done r | m => (this, _ <- m ;; Ok tt) end.

(** operator<< -- src/Mat.hpp:96-105; [pr] inserts an entry, the newline is that of
    std::endl. *)
Definition NEWLINE : ascii := ascii_of_nat 10.
Definition M_print (pr : ostream -> T -> ostream) (o : ostream) (m : M) : res ostream :=
  m <- Mat_copy m ;;
  final (for_ (rows m) 0 (fun i o =>
    andthen (for_ (cols m) 0 (fun j o => eval o (entry m i j) (fun x => done (put (pr o x) [" "%char]))) o)
            (fun o => if i <? rows m - 1 then done (mkOut (obuf o ++ [NEWLINE]) (owidth o) (ofill o)) else done o)) o).
End Mat.
Arguments MVal {T} _.
Arguments MElem {T} _ _.
