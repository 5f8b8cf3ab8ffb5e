(** The memory behind class template Mat: src/Mat.hpp. [MatModel] takes a Mat for a
    value; here an object holds the address of an array from new T[], which its
    destructor deletes, and the functions of Mat.hpp are programs over such objects.

    Simplifications: allocation does not fail; copy elision (a function returning
    a local Mat by value constructs the caller's object, as every compiler does); dimensions
    and indices are natural numbers (see SizeModel). Assertion failures and undefined
    behaviour end the program: nothing is destroyed then. *)
From Coq Require Import Ascii.
From Verif Require Import Base IntModel IOModel ElemModel VecModel MatModel.
Local Open Scope list_scope.
Local Open Scope nat_scope.

(** *** Programs. An object is named by a number. *)
Inductive prog (T : Type) : Type -> Type :=
| Ret {A} (m : res A) : prog T A                         (* no use of memory *)
| Bind {A B} (p : prog T A) (k : A -> prog T B) : prog T B
| Scope {A} (x : nat) (keep : bool) (p : prog T A) : prog T A
                                                         (* at the end of p, x is destroyed; [keep]: only if p throws *)
| New (r c : nat) : prog T nat                           (* Mat(r, c) *)
| Del (x : nat) : prog T unit                            (* ~Mat() *)
| Get (x i j : nat) : prog T T                           (* x(i, j) *)
| Data (x k : nat) : prog T T                            (* x.data[k] *)
| Set_ (x i j : nat) (v : T) : prog T unit               (* x(i, j) = v *)
| Dims (x : nat) : prog T (nat * nat)                    (* numRows(), numCols() *)
| Swap (x y : nat) : prog T unit.                        (* swap(x, y) *)
Arguments Ret {T A} _.
Arguments Bind {T A B} _ _.
Arguments Scope {T A} _ _ _.
Arguments New {T} _ _.
Arguments Del {T} _.
Arguments Get {T} _ _ _.
Arguments Data {T} _ _.
Arguments Set_ {T} _ _ _ _.
Arguments Dims {T} _.
Arguments Swap {T} _ _.
Notation "x <~ p ;; q" := (Bind p (fun x => q)) (at level 61, p at next level, right associativity).
Notation "' pat <~ p ;; q" := (Bind p (fun x => match x with pat => q end)) (at level 61, pat pattern, p at next level, right associativity).

(** *** Memory *)
(** the members rows, cols, data -- src/Mat.hpp:81-83; data is an address *)
Record obj := mkObj { orows : nat; ocols : nat; odata : nat }.
(** [None]: deleted, resp. destroyed. An address or a name is never used again. *)
Record memory (T : Type) := mkMem { arrays : list (option (list (option T))); objs : list (option obj) }.
Arguments mkMem {T} _ _.
Arguments arrays {T} _.
Arguments objs {T} _.
Definition live {A} (l : list (option A)) (k : nat) : option A := match nth_error l k with Some o => o | None => None end.

Section Run.
Context {T : Type} (E : ops T).
(** new T[n] *)
Definition new_array (s : memory T) (n : nat) : memory T * nat :=
  (mkMem (arrays s ++ [Some (repeat (fresh E) n)]) (objs s), length (arrays s)).
(** the destructor -- src/Mat.hpp:130-133. Deleting twice is undefined. *)
Definition destroy (s : memory T) (x : nat) : memory T * res unit :=
  match live (objs s) x with
  | None => (s, UB)
  | Some o =>
      match live (arrays s) (odata o) with
      | None => (s, UB)
      | Some _ => (mkMem (replace (arrays s) (odata o) None) (replace (objs s) x None), Ok tt)
      end
  end.
Definition load (s : memory T) (x : nat) (k : obj -> nat) : res T :=
  match live (objs s) x with
  | None => UB
  | Some o => match live (arrays s) (odata o) with None => UB | Some a => read a (k o) end
  end.
Definition store (s : memory T) (x : nat) (k : obj -> nat) (v : T) : memory T * res unit :=
  match live (objs s) x with
  | None => (s, UB)
  | Some o =>
      match live (arrays s) (odata o) with
      | None => (s, UB)
      | Some a => if k o <? length a then (mkMem (replace (arrays s) (odata o) (Some (replace a (k o) (Some v)))) (objs s), Ok tt)
                  else (s, UB)
      end
  end.

Fixpoint hrun {A} (p : prog T A) (s : memory T) : memory T * res A :=
  match p in prog _ A return memory T * res A with
  | Ret m => (s, m)
  | Bind p k =>
      match hrun p s with
      | (s, Ok a) => hrun (k a) s
      | (s, m) => (s, _ <- m ;; UB)
      end
  | Scope x keep p =>
      match hrun p s with
      | (s, Ok a) => if keep then (s, Ok a) else let '(s, d) := destroy s x in (s, _ <- d ;; Ok a)
      | (s, Throw e) => let '(s, d) := destroy s x in (s, _ <- d ;; Throw e)
      | q => q
      end
  | New r c =>
      let '(s, a) := new_array s (r * c) in
      (mkMem (arrays s) (objs s ++ [Some (mkObj r c a)]), Ok (length (objs s)))
  | Del x => destroy s x
  | Get x i j => (s, load s x (fun o => i * ocols o + j))
  | Data x k => (s, load s x (fun _ => k))
  | Set_ x i j v => store s x (fun o => i * ocols o + j) v
  | Dims x => (s, match live (objs s) x with Some o => Ok (orows o, ocols o) | None => UB end)
  | Swap x y =>
      match live (objs s) x, live (objs s) y with
      | Some o, Some o' => (mkMem (arrays s) (replace (replace (objs s) x (Some o')) y (Some o)), Ok tt)
      | _, _ => (s, UB)
      end
  end.
End Run.

(** *** The functions of src/Mat.hpp *)
Section Functions.
Context {T : Type} (E : ops T).
Local Notation prog := (prog T).

Fixpoint pfor (n a : nat) (body : nat -> prog unit) : prog unit :=
  match n with O => Ret (Ok tt) | S n => _ <~ body a ;; pfor n (S a) body end.
Definition pfor_to (a b : nat) (body : nat -> prog unit) : prog unit := pfor (b - a) a body.
Definition pfor2 (r c : nat) (body : nat -> nat -> prog unit) : prog unit := pfor r 0 (fun i => pfor c 0 (body i)).
(** a loop that changes a local variable of an element type *)
Fixpoint pfold {S} (n a : nat) (body : nat -> S -> prog S) (s : S) : prog S :=
  match n with O => Ret (Ok s) | Datatypes.S n => s <~ body a s ;; pfold n (Datatypes.S a) body s end.
Definition pfill (x r c : nat) (f : nat -> nat -> prog T) : prog unit := pfor2 r c (fun i j => v <~ f i j ;; Set_ x i j v).
(** Mat<T> x(r, c); body; return x; *)
Definition returning (r c : nat) (body : nat -> prog unit) : prog nat :=
  x <~ New r c ;; Scope x true (_ <~ body x ;; Ret (Ok x)).
(** Mat<T> x = f; body *)
Definition local {A} (f : prog nat) (body : nat -> prog A) : prog A := x <~ f ;; Scope x false (body x).

(** setEntries -- src/Mat.hpp:135-149; [src k] is vals[k] *)
Definition h_setEntries (x : nat) (src : nat -> prog T) (size : nat) : prog unit :=
  '(r, c) <~ Dims x ;; if size <? r * c then Ret (Throw DomainError) else pfill x r c (fun i j => src (i * c + j)).
Definition h_setEntries_val (x : nat) (v : T) : prog unit := '(r, c) <~ Dims x ;; pfill x r c (fun _ _ => Ret (Ok v)).
(** the constructors -- src/Mat.hpp:107-128. An exception in the body of a constructor
    does not run the destructor. *)
Definition h_copy (x : nat) : prog nat :=
  '(r, c) <~ Dims x ;; y <~ New r c ;; _ <~ h_setEntries y (Data x) (r * c) ;; Ret (Ok y).
Definition h_val (r c : nat) (v : T) : prog nat := y <~ New r c ;; _ <~ h_setEntries_val y v ;; Ret (Ok y).
Definition h_array (vals : list (option T)) (r c : nat) : prog nat :=
  y <~ New r c ;; _ <~ h_setEntries y (fun k => Ret (read vals k)) (r * c) ;; Ret (Ok y).
(** operator= -- src/Mat.hpp:69-79: the parameter is a copy *)
Definition h_assign (this a : nat) : prog unit := local (h_copy a) (fun a => Swap this a).

(** unary -, +, -, scalar *, / -- src/Mat.hpp:151-169, 180-189, 200-212, 221-228 *)
Definition h_map (f : T -> res T) (a : nat) : prog nat :=
  '(r, c) <~ Dims a ;; returning r c (fun x => pfill x r c (fun i j => v <~ Get a i j ;; Ret (f v))).
Definition h_neg := h_map (neg E).
Definition h_scale (s : T) := h_map (mul E s).
Definition h_div (s : T) := h_map (fun x => div E x s).
Definition h_binary (op : T -> T -> res T) (a b : nat) : prog nat :=
  '(r, c) <~ Dims a ;; '(r', c') <~ Dims b ;;
  if negb ((r =? r') && (c =? c')) then Ret (Throw DomainError)
  else returning r c (fun x => pfill x r c (fun i j => v <~ Get a i j ;; w <~ Get b i j ;; Ret (op v w))).
Definition h_add := h_binary (add E).
Definition h_sub := h_binary (sub E).
(** entry(i, j) op= y *)
Definition h_assign_entry (op : T -> option T -> res T) (x i j : nat) (y : option T) : prog unit :=
  v <~ Get x i j ;; w <~ Ret (op v y) ;; Set_ x i j w.
(** +=, -= -- src/Mat.hpp:171-178, 191-198 *)
Definition h_mat_assign (op : T -> option T -> res T) (a b : nat) : prog unit :=
  '(r, c) <~ Dims a ;; '(r', c') <~ Dims b ;;
  if negb ((r =? r') && (c =? c')) then Ret (Throw DomainError)
  else pfor2 r c (fun i j => y <~ Get b i j ;; h_assign_entry op a i j (Some y)).
Definition h_add_assign := h_mat_assign (addA E).
Definition h_sub_assign := h_mat_assign (subA E).
(** *=, /= by a scalar -- src/Mat.hpp:214-219, 230-235 *)
Definition h_scale_assign (op : T -> option T -> res T) (x : nat) (s : mscalar (T := T)) : prog unit :=
  '(r, c) <~ Dims x ;;
  pfor2 r c (fun i j =>
    match s with
    | MVal a => h_assign_entry op x i j (Some a)
    | MElem p q => if (i =? p) && (j =? q) then h_assign_entry op x i j None
                   else a <~ Get x p q ;; h_assign_entry op x i j (Some a)
    end).
Definition h_mul_assign := h_scale_assign (mulA E).
Definition h_div_assign := h_scale_assign (divA E).
(** the matrix product -- src/Mat.hpp:237-261 *)
Definition h_product_into (a b x ra ca cb : nat) : prog unit :=
  pfor ra 0 (fun i => pfor ca 0 (fun k => pfor cb 0 (fun j =>
    v <~ Get a i k ;; w <~ Get b k j ;; p <~ Ret (mul E v w) ;; h_assign_entry (addA E) x i j (Some p)))).
Definition h_product (a b : nat) : prog nat :=
  '(ra, ca) <~ Dims a ;; '(rb, cb) <~ Dims b ;;
  if negb (ca =? rb) then Ret (Throw DomainError)
  else x <~ h_val ra cb (of_int E 0) ;; Scope x true (_ <~ h_product_into a b x ra ca cb ;; Ret (Ok x)).
Definition h_product_assign (a b : nat) : prog unit :=
  '(ra, ca) <~ Dims a ;; '(rb, cb) <~ Dims b ;;
  if negb (ca =? rb) then Ret (Throw DomainError)
  else local (h_val ra cb (of_int E 0)) (fun x => _ <~ h_product_into a b x ra ca cb ;; Swap a x).
(** ==, != -- src/Mat.hpp:263-277 *)
Fixpoint pall (n a : nat) (p : nat -> prog bool) : prog bool :=
  match n with O => Ret (Ok true) | S n => b <~ p a ;; if b : bool then pall n (S a) p else Ret (Ok false) end.
Definition h_eq (a b : nat) : prog bool :=
  '(r, c) <~ Dims a ;; '(r', c') <~ Dims b ;;
  if negb ((r =? r') && (c =? c')) then Ret (Ok false)
  else pall r 0 (fun i => pall c 0 (fun j => v <~ Get a i j ;; w <~ Get b i j ;; Ret (eqb E v w))).
Definition h_ne (a b : nat) : prog bool := e <~ h_eq a b ;; Ret (Ok (negb e)).
(** first_minor, cofactor -- src/Mat.hpp:279-298; the minor that is negated is a
    temporary *)
Definition h_first_minor (x i j : nat) : prog nat :=
  '(r, c) <~ Dims x ;;
  if (r =? 0) || (c =? 0) then Ret UB
  else returning (r - 1) (c - 1) (fun y => pfill y (r - 1) (c - 1) (fun m n => Get x (skip i m) (skip j n))).
Definition h_cofactor (x i j : nat) : prog nat :=
  if (i + j) mod 2 =? 1 then local (h_first_minor x i j) h_neg else h_first_minor x i j.
(** cofactor expansions -- src/Mat.hpp:300-342; the minors are temporaries *)
Definition h_det2 (x : nat) : prog T :=
  a <~ Data x 0 ;; d <~ Data x 3 ;; p <~ Ret (mul E a d) ;; b <~ Data x 1 ;; c <~ Data x 2 ;; q <~ Ret (mul E b c) ;; Ret (sub E p q).
Definition h_expansion (rec : nat -> prog T) (x : nat) (cs : bool) : prog T :=
  '(r, c) <~ Dims x ;;
  if negb (r =? c) then Ret (Throw DomainError)
  else if r =? 1 then Data x 0
  else if r =? 2 then h_det2 x
  else pfold (if cs then c else r) 0 (fun k result =>
    v <~ (if cs then Get x 0 k else Get x k 0) ;; z <~ Ret (eqb E v (of_int E 0)) ;;
    if z : bool then Ret (Ok result)
    else local (if cs then h_first_minor x 0 k else h_first_minor x k 0) (fun y =>
           d <~ rec y ;; p <~ Ret (mul E v d) ;;
           Ret (if k mod 2 =? 1 then subA E result (Some p) else addA E result (Some p)))) (of_int E 0).
Fixpoint h_cofactor_expansion (fuel : nat) (cs : bool) (x : nat) : prog T :=
  match fuel with O => Ret OutOfFuel | S f => h_expansion (h_cofactor_expansion f cs) x cs end.
Definition h_row_expansion (x : nat) : prog T := '(r, c) <~ Dims x ;; h_cofactor_expansion (S r) true x.
Definition h_col_expansion (x : nat) : prog T := '(r, c) <~ Dims x ;; h_cofactor_expansion (S r) false x.
(** swap_rows and the search for a pivot -- src/Mat.hpp:373-382, 412-418, 428-437 *)
Definition h_swap_rows (x a b : nat) : prog unit :=
  if a =? b then Ret (Ok tt)
  else '(_, c) <~ Dims x ;; pfor c 0 (fun k => v <~ Get x a k ;; w <~ Get x b k ;; _ <~ Set_ x a k w ;; Set_ x b k v).
Fixpoint h_find_pivot (fuel : nat) (x r i pivot : nat) : prog (option (nat * nat)) :=
  match fuel with
  | O => Ret OutOfFuel
  | S fuel =>
      v <~ Get x i pivot ;; z <~ Ret (eqb E v (of_int E 0)) ;;
      if z : bool then
        '(rs, cs) <~ Dims x ;;
        if rs =? i + 1 then if cs =? pivot + 1 then Ret (Ok None) else h_find_pivot fuel x r r (pivot + 1)
        else h_find_pivot fuel x r (i + 1) pivot
      else Ret (Ok (Some (i, pivot)))
  end.
(** determinant -- src/Mat.hpp:357-403 *)
Definition h_det_clear (x r pivot : nat) : prog unit :=
  '(rs, _) <~ Dims x ;;
  pfor_to (pivot + 1) rs (fun i =>
    if i =? r then Ret (Ok tt)
    else val <~ Get x i pivot ;; '(_, cs) <~ Dims x ;;
      pfor_to pivot cs (fun j =>
        a <~ Get x r j ;; p <~ Ret (mul E val a) ;; b <~ Get x r pivot ;; q <~ Ret (div E p b) ;; h_assign_entry (subA E) x i j (Some q))).
Fixpoint h_det_rows (n r x : nat) (factor : T) (pivot : nat) : prog T :=
  match n with
  | O => Ret (Ok factor)
  | S n =>
      '(rs, cs) <~ Dims x ;;
      if cs <=? pivot then Ret (Ok factor)
      else o <~ h_find_pivot (S (rs * cs)) x r r pivot ;;
        match o with
        | None => Ret (Ok factor)
        | Some (i, pivot) =>
            factor <~ (if i =? r then Ret (Ok factor)
                       else _ <~ h_swap_rows x i r ;; Ret (mulA E factor (Some (of_int E (-1))))) ;;
            _ <~ h_det_clear x r pivot ;;
            h_det_rows n (S r) x factor (pivot + 1)
        end
  end.
Definition h_determinant (x : nat) : prog T :=
  '(r, c) <~ Dims x ;;
  if negb (r =? c) then Ret (Throw DomainError)
  else if r =? 1 then Data x 0
  else if r =? 2 then h_det2 x
  else local (h_copy x) (fun tmp =>
    '(rs, _) <~ Dims tmp ;; factor <~ h_det_rows rs 0 tmp (of_int E 1) 0 ;; '(rs, _) <~ Dims tmp ;;
    prod <~ pfold rs 0 (fun i p => v <~ Get tmp i i ;; Ret (mulA E p (Some v))) (of_int E 1) ;;
    Ret (div E prod factor)).
(** rref -- src/Mat.hpp:405-410, 420-453 *)
Definition h_rref_clear (x r pivot : nat) : prog unit :=
  '(rs, _) <~ Dims x ;;
  pfor rs 0 (fun i =>
    if i =? r then Ret (Ok tt)
    else val <~ Get x i pivot ;; '(_, cs) <~ Dims x ;;
      pfor cs 0 (fun j => a <~ Get x r j ;; p <~ Ret (mul E val a) ;; h_assign_entry (subA E) x i j (Some p))).
Fixpoint h_rref_rows (n r pivot x : nat) : prog unit :=
  match n with
  | O => Ret (Ok tt)
  | S n =>
      '(rs, cs) <~ Dims x ;;
      if cs <=? pivot then Ret (Ok tt)
      else o <~ h_find_pivot (S (rs * cs)) x r r pivot ;;
        match o with
        | None => Ret (Ok tt)
        | Some (i, pivot) =>
            _ <~ h_swap_rows x i r ;;
            val <~ Get x r pivot ;; '(_, cs) <~ Dims x ;;
            _ <~ pfor cs 0 (fun j => h_assign_entry (divA E) x r j (Some val)) ;;
            _ <~ h_rref_clear x r pivot ;;
            h_rref_rows n (S r) (pivot + 1) x
        end
  end.
Definition h_inplace_rref (x : nat) : prog unit := '(r, _) <~ Dims x ;; h_rref_rows r 0 0 x.
Definition h_rref (x : nat) : prog nat := y <~ h_copy x ;; Scope y true (_ <~ h_inplace_rref y ;; Ret (Ok y)).
(** diagonalMatrix, identityMatrix, augmentedMatrix -- src/Mat.hpp:475-503 *)
Definition h_diagonal (vals : list (option T)) (size : nat) : prog nat :=
  x <~ h_val size size (of_int E 0) ;; Scope x true (_ <~ pfor size 0 (fun i => v <~ Ret (read vals i) ;; Set_ x i i v) ;; Ret (Ok x)).
Definition h_identity (size : nat) : prog nat :=
  x <~ h_val size size (of_int E 0) ;; Scope x true (_ <~ pfor size 0 (fun i => Set_ x i i (of_int E 1)) ;; Ret (Ok x)).
Definition h_augmented (a b : nat) : prog nat :=
  '(ra, ca) <~ Dims a ;; '(rb, cb) <~ Dims b ;;
  if negb (ra =? rb) then Ret (Throw DomainError)
  else returning ra (ca + cb) (fun x => pfor ra 0 (fun i =>
    _ <~ pfor ca 0 (fun j => v <~ Get a i j ;; Set_ x i j v) ;; pfor cb 0 (fun j => v <~ Get b i j ;; Set_ x i (j + ca) v))).
(** inverse -- src/Mat.hpp:455-473 *)
Definition h_inverse (m : nat) : prog nat :=
  '(rs, cs) <~ Dims m ;;
  if negb (rs =? cs) then Ret (Throw DomainError)
  else local (h_identity rs) (fun identity => local (h_augmented m identity) (fun r =>
    returning rs cs (fun result =>
      _ <~ h_inplace_rref r ;;
      pfor2 rs cs (fun i j =>
        v <~ Get r i j ;; w <~ Get identity i j ;; e <~ Ret (eqb E v w) ;;
        if e : bool then v <~ Get r i (j + rs) ;; Set_ result i j v else Ret (Throw DomainError))))).
(** trace, transpose -- src/Mat.hpp:505-522 *)
Definition h_trace (x : nat) : prog T :=
  '(r, c) <~ Dims x ;;
  if negb (r =? c) then Ret (Throw DomainError)
  else pfold r 0 (fun i t => v <~ Get x i i ;; Ret (addA E t (Some v))) (of_int E 0).
Definition h_transpose (x : nat) : prog nat :=
  '(r, c) <~ Dims x ;; returning c r (fun y => pfor2 r c (fun i j => v <~ Get x i j ;; Set_ y j i v)).
(** operator<< -- src/Mat.hpp:96-105: the parameter is a copy *)
Definition h_print (pr : ostream -> T -> ostream) (o : ostream) (x : nat) : prog ostream :=
  local (h_copy x) (fun m =>
    '(rs, _) <~ Dims m ;;
    pfold rs 0 (fun i o =>
      '(rs, cs) <~ Dims m ;;
      o <~ pfold cs 0 (fun j o => v <~ Get m i j ;; Ret (Ok (put (pr o v) [" "%char]))) o ;;
      Ret (Ok (if i <? rs - 1 then mkOut (obuf o ++ [NEWLINE]) (owidth o) (ofill o) else o))) o).
End Functions.
