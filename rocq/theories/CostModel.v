(** The algorithms of Mat again (MatModel.v; src/Mat.hpp:237-248, 300-473), counting
    the operations on elements: every function returns what the function of MatModel.v
    returns (CostProofs.v) and the weighted number of operations performed until then,
    also when it fails. Copies and moves of elements are not counted. *)
From Verif Require Import Base IntModel IOModel ElemModel VecModel MatModel.
Local Open Scope list_scope.
Local Open Scope nat_scope.

(** comparisons; sums and differences, also in place; products; quotients *)
Inductive kind := Compare | AddSub | Times | Over.

Definition counted (A : Type) := (res A * Z)%type.
Definition cbind {A B} (m : counted A) (f : A -> counted B) : counted B :=
  match m with
  | (Ok a, n) => let p := f a in (fst p, (n + snd p)%Z)
  | (Throw e, n) => (Throw e, n)
  | (Abort, n) => (Abort, n)
  | (UB, n) => (UB, n)
  | (OutOfFuel, n) => (OutOfFuel, n)
  end.
Notation "x <-- m ;;; f" := (cbind m (fun x => f)) (at level 61, m at next level, right associativity).
Definition free {A} (m : res A) : counted A := (m, 0%Z).
Definition ceval {S A} (s : S) (m : counted A) (k : A -> outcome S * Z) : outcome S * Z :=
  match m with
  | (Ok a, n) => let p := k a in (fst p, (n + snd p)%Z)
  | (m, n) => (eval s m (fun _ => (s, Ok tt)), n)
  end.
Definition candthen {S} (p : outcome S * Z) (k : S -> outcome S * Z) : outcome S * Z :=
  match p with
  | (s, Ok _, n) => let p := k s in (fst p, (n + snd p)%Z)
  | _ => p
  end.
Definition cdone {S} (s : S) : outcome S * Z := (done s, 0%Z).
Definition cfree {S} (p : outcome S) : outcome S * Z := (p, 0%Z).
Definition cfinal {S} (p : outcome S * Z) : counted S := (final (fst p), snd p).
Fixpoint cfor {S} (n a : nat) (body : nat -> S -> outcome S * Z) (s : S) : outcome S * Z :=
  match n with
  | O => cdone s
  | Datatypes.S n' => candthen (body a s) (cfor n' (Datatypes.S a) body)
  end.

Section Cost.
Context {T : Type} (E : ops T) (w : kind -> Z).
Local Notation M := (Mat T).
Definition tick {A} (k : kind) (m : res A) : counted A := (m, w k).

(** entry(i, j) op= y *)
Definition assign_entry_c (k : kind) (op : T -> option T -> res T) (m : M) (i j : nat) (y : option T) : outcome M * Z :=
  ceval m (x <-- free (entry m i j) ;;; tick k (op x y)) (fun z => cfree (set_entry m i j z)).

Definition M_product_c (a b : M) : counted M :=
  if negb (cols a =? rows b) then free (Throw DomainError)
  else r <-- free (Mat_val E (rows a) (cols b) (of_int E 0)) ;;;
       cfinal (cfor (rows a) 0 (fun i => cfor (cols a) 0 (fun k => cfor (cols b) 0 (fun j d =>
         ceval d (x <-- free (entry a i k) ;;; y <-- free (entry b k j) ;;; tick Times (mul E x y)) (fun p => assign_entry_c AddSub (addA E) d i j (Some p))))) r).

Definition det2_c (m : M) : counted T :=
  a <-- free (read (data m) 0) ;;; d <-- free (read (data m) 3) ;;; p <-- tick Times (mul E a d) ;;;
  b <-- free (read (data m) 1) ;;; c <-- free (read (data m) 2) ;;; q <-- tick Times (mul E b c) ;;; tick AddSub (sub E p q).

Definition expansion_c (rec : M -> counted T) (m : M) (n : nat) (ent : nat -> res T) (mnr : nat -> res M) : counted T :=
  if negb (rows m =? cols m) then free (Throw DomainError)
  else if rows m =? 1 then free (read (data m) 0)
  else if rows m =? 2 then det2_c m
  else cfinal (cfor n 0 (fun k result =>
    ceval result (free (ent k)) (fun x => ceval result (tick Compare (eqb E x (of_int E 0))) (fun z : bool =>
      if z then cdone result
      else ceval result (s <-- free (mnr k) ;;; d <-- rec s ;;; p <-- tick Times (mul E x d) ;;;
                        tick AddSub (if k mod 2 =? 1 then subA E result (Some p) else addA E result (Some p))) cdone))) (of_int E 0)).
Fixpoint row_expansion_c (fuel : nat) (m : M) : counted T :=
  match fuel with
  | O => free OutOfFuel
  | S fuel' => expansion_c (row_expansion_c fuel') m (cols m) (fun j => entry m 0 j) (fun j => first_minor E m 0 j)
  end.
Fixpoint col_expansion_c (fuel : nat) (m : M) : counted T :=
  match fuel with
  | O => free OutOfFuel
  | S fuel' => expansion_c (col_expansion_c fuel') m (rows m) (fun i => entry m i 0) (fun i => first_minor E m i 0)
  end.
Definition row_cofactor_expansion_c (m : M) : counted T := row_expansion_c (S (rows m)) m.
Definition col_cofactor_expansion_c (m : M) : counted T := col_expansion_c (S (rows m)) m.

Fixpoint find_pivot_c (fuel : nat) (m : M) (r i pivot : nat) : counted (option (nat * nat)) :=
  match fuel with
  | O => free OutOfFuel
  | S fuel' =>
      x <-- free (entry m i pivot) ;;; z <-- tick Compare (eqb E x (of_int E 0)) ;;;
      if z : bool then
        if rows m =? i + 1 then
          if cols m =? pivot + 1 then free (Ok None) else find_pivot_c fuel' m r r (pivot + 1)
        else find_pivot_c fuel' m r (i + 1) pivot
      else free (Ok (Some (i, pivot)))
  end.

Definition det_clear_c (tmp : M) (r pivot : nat) : outcome M * Z :=
  cfor (rows tmp - (pivot + 1)) (pivot + 1) (fun i tmp =>
    if i =? r then cdone tmp
    else ceval tmp (free (entry tmp i pivot)) (fun val =>
      cfor (cols tmp - pivot) pivot (fun j tmp =>
        ceval tmp (a <-- free (entry tmp r j) ;;; p <-- tick Times (mul E val a) ;;; b <-- free (entry tmp r pivot) ;;; tick Over (div E p b))
             (fun q => assign_entry_c AddSub (subA E) tmp i j (Some q))) tmp)) tmp.
Fixpoint det_rows_c (n r : nat) (tmp : M) (factor : T) (pivot : nat) : counted (M * T) :=
  match n with
  | O => free (Ok (tmp, factor))
  | S n' =>
      if cols tmp <=? pivot then free (Ok (tmp, factor))
      else o <-- find_pivot_c (pivot_fuel tmp) tmp r r pivot ;;;
        match o with
        | None => free (Ok (tmp, factor))
        | Some (i, pivot) =>
            p <-- (if i =? r then free (Ok (tmp, factor))
                   else t <-- free (final (swap_rows tmp i r)) ;;; f <-- tick Times (mulA E factor (Some (of_int E (-1)))) ;;; free (Ok (t, f))) ;;;
            tmp <-- cfinal (det_clear_c (fst p) r pivot) ;;;
            det_rows_c n' (S r) tmp (snd p) (pivot + 1)
        end
  end.
Definition determinant_c (m : M) : counted T :=
  if negb (rows m =? cols m) then free (Throw DomainError)
  else if rows m =? 1 then free (read (data m) 0)
  else if rows m =? 2 then det2_c m
  else tmp <-- free (Mat_copy E m) ;;;
       p <-- det_rows_c (rows tmp) 0 tmp (of_int E 1) 0 ;;;
       prod <-- cfinal (cfor (rows (fst p)) 0 (fun i q => ceval q (x <-- free (entry (fst p) i i) ;;; tick Times (mulA E q (Some x))) cdone) (of_int E 1)) ;;;
       tick Over (div E prod (snd p)).

Definition rref_clear_c (m : M) (r pivot : nat) : outcome M * Z :=
  cfor (rows m) 0 (fun i m =>
    if i =? r then cdone m
    else ceval m (free (entry m i pivot)) (fun val =>
      cfor (cols m) 0 (fun j m =>
        ceval m (a <-- free (entry m r j) ;;; tick Times (mul E val a)) (fun p => assign_entry_c AddSub (subA E) m i j (Some p))) m)) m.
Fixpoint rref_rows_c (n r pivot : nat) (m : M) : outcome M * Z :=
  match n with
  | O => cdone m
  | S n' =>
      if cols m <=? pivot then cdone m
      else ceval m (find_pivot_c (pivot_fuel m) m r r pivot) (fun o =>
        match o with
        | None => cdone m
        | Some (i, pivot) =>
            candthen (cfree (swap_rows m i r)) (fun m =>
            ceval m (free (entry m r pivot)) (fun val =>
            candthen (cfor (cols m) 0 (fun j m => assign_entry_c Over (divA E) m r j (Some val)) m) (fun m =>
            candthen (rref_clear_c m r pivot) (fun m =>
            rref_rows_c n' (S r) (pivot + 1) m))))
        end)
  end.
Definition inplace_rref_c (m : M) : outcome M * Z := rref_rows_c (rows m) 0 0 m.
Definition rref_c (m : M) : counted M := r <-- free (Mat_copy E m) ;;; cfinal (inplace_rref_c r).

Definition inverse_c (m : M) : counted M :=
  if negb (rows m =? cols m) then free (Throw DomainError)
  else identity <-- free (identityMatrix E (rows m)) ;;;
       r <-- free (augmentedMatrix E m identity) ;;;
       r <-- cfinal (inplace_rref_c r) ;;;
       cfinal (cfor (rows m) 0 (fun i => cfor (cols m) 0 (fun j result =>
         ceval result (x <-- free (entry r i j) ;;; y <-- free (entry identity i j) ;;; tick Compare (eqb E x y)) (fun e : bool =>
           if e then ceval result (free (entry r i (j + rows m))) (fun x => cfree (set_entry result i j x))
           else cfree (result, Throw DomainError)))) (Mat_new E (rows m) (cols m))).
End Cost.
