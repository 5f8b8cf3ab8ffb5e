(** Programs of calls of Vec and Mat, and what they compute over an algebra:
    vectors are finite sequences, matrices functions of two indices. Nothing here
    mentions the code. *)
From Coq Require Import ZArith List.
From Verif Require Import Base ElemSpec.
Import ListNotations.
Local Open Scope nat_scope.

(** Variables are numbered: there are scalars, vectors, matrices and truth values. *)
Inductive addsub := Plus | Minus.
Inductive lcall :=
(* scalars *)
| Lit (d : nat) (k : Z)                (* d = T(k) *)
| SNeg (d a : nat)                     (* d = -a *)
| SAddSub (o : addsub) (d a b : nat)   (* d = a + b *)
| SMul (d a b : nat)                   (* d = a * b *)
| SDiv (d a b : nat)                   (* d = a / b *)
(* vectors -- src/Vec.hpp *)
| VNew (d n : nat)                     (* d = Vec(n) *)
| VConst (d n s : nat)                 (* d = constantVec(n, s) *)
| VFill (d s : nat)                    (* d.setEntries(s) *)
| VCopy (d a : nat)                    (* d = Vec(a) *)
| VGet (d a i : nat)                   (* d = a[i] *)
| VSet (d i s : nat)                   (* d[i] = s *)
| VAddSub (o : addsub) (d a b : nat)   (* d = a + b *)
| VAssign (o : addsub) (d b : nat)     (* d += b; the same object when d = b *)
| VMul (d a s : nat)                   (* d = s * a, d = a * s *)
| VDiv (d a s : nat)                   (* d = a / s *)
| VMulA (d s : nat)                    (* d *= s *)
| VDivA (d s : nat)                    (* d /= s *)
| VMulOwn (d k : nat)                  (* d *= d[k] *)
| VDivOwn (d k : nat)                  (* d /= d[k] *)
| VEq (d a b : nat)                    (* d = (a == b) *)
| VCat (d a b : nat)                   (* d = a.concatenate(b) *)
| VDot (d a b : nat)                   (* d = a.dot(b) *)
| VCross (d a b : nat)                 (* d = a.cross(b) *)
| VSTP (d a b c : nat)                 (* d = scalar_triple_product(a, b, c) *)
| VVTP (d a b c : nat)                 (* d = vector_triple_product(a, b, c) *)
(* matrices -- src/Mat.hpp *)
| MNew (d r c s : nat)                 (* d = Mat(r, c, s) *)
| MArray (d a r c : nat)               (* d = Mat(&a[0], r, c) *)
| MIdent (d n : nat)                   (* d = identityMatrix(n) *)
| MDiag (d a n : nat)                  (* d = diagonalMatrix(&a[0], n) *)
| MCopy (d a : nat)                    (* d = a *)
| MGet (d a i j : nat)                 (* d = a(i, j) *)
| MSet (d i j s : nat)                 (* d(i, j) = s *)
| MNeg (d a : nat)                     (* d = -a *)
| MAddSub (o : addsub) (d a b : nat)   (* d = a + b *)
| MAssign (o : addsub) (d b : nat)     (* d += b *)
| MMul (d a s : nat)                   (* d = s * a, d = a * s *)
| MDiv (d a s : nat)                   (* d = a / s *)
| MMulA (d s : nat)                    (* d *= s *)
| MDivA (d s : nat)                    (* d /= s *)
| MMulOwn (d p q : nat)                (* d *= d(p, q) *)
| MDivOwn (d p q : nat)                (* d /= d(p, q) *)
| MProd (d a b : nat)                  (* d = a * b *)
| MProdA (d b : nat)                   (* d *= b *)
| MEq (d a b : nat)                    (* d = (a == b) *)
| MTrans (d a : nat)                   (* d = a.transpose() *)
| MTrace (d a : nat)                   (* d = a.trace() *)
| MMinor (d a i j : nat)               (* d = a.first_minor(i, j) *)
| MCof (d a i j : nat)                 (* d = a.cofactor(i, j) *)
| MAug (d a b : nat)                   (* d = augmentedMatrix(a, b) *)
| MRow (d a : nat)                     (* d = a.row_cofactor_expansion() *)
| MCol (d a : nat)                     (* d = a.col_cofactor_expansion() *)
| MDet (d a : nat)                     (* d = a.determinant() *)
| MRref (d a : nat)                    (* d = a.rref() *)
| MRrefA (d : nat)                     (* d.inplace_rref() *)
| MInv (d a : nat).                    (* d = a.inverse() *)

(** What the values are: the operations, the determinant, which matrix is the
    reduced row echelon form of another and which the inverse. *)
Record algebra (A : Type) := {
  zero : A; one : A; lit : Z -> A;
  fadd : A -> A -> A; fsub : A -> A -> A; fmul : A -> A -> A; fdiv : A -> A -> A; fneg : A -> A;
  feq : A -> A -> bool;
  fdet : nat -> (nat -> nat -> A) -> A;
  is_reduced : nat -> nat -> (nat -> nat -> A) -> (nat -> nat -> A) -> Prop;
  is_inverse : nat -> (nat -> nat -> A) -> (nat -> nat -> A) -> Prop }.
Arguments zero {A} _. Arguments one {A} _. Arguments lit {A} _ _. Arguments fadd {A} _ _ _. Arguments fsub {A} _ _ _.
Arguments fmul {A} _ _ _. Arguments fdiv {A} _ _ _. Arguments fneg {A} _ _. Arguments feq {A} _ _ _.
Arguments fdet {A} _ _ _. Arguments is_reduced {A} _ _ _ _ _. Arguments is_inverse {A} _ _ _ _.

(** The values of the variables. *)
Record values (A : Type) := mkValues {
  scalar_of : nat -> A;
  vector_of : nat -> nat * (nat -> A);                     (* size and components *)
  matrix_of : nat -> nat * nat * (nat -> nat -> A);        (* rows, columns and entries *)
  truth_of : nat -> bool }.
Arguments mkValues {A} _ _ _ _. Arguments scalar_of {A} _ _. Arguments vector_of {A} _ _. Arguments matrix_of {A} _ _. Arguments truth_of {A} _ _.
Definition put_at {B} (f : nat -> B) (d : nat) (x : B) : nat -> B := fun n => if n =? d then x else f n.

(** What a call does: give one variable a value, throw (and change nothing), or
    something the language does not define. *)
Inductive effect (A : Type) :=
| SetS (d : nat) (a : A) | SetV (d n : nat) (v : nat -> A) | SetM (d r c : nat) (g : nat -> nat -> A) | SetB (d : nat) (b : bool)
| Raise (e : exn) | Undefined.
Arguments SetS {A} _ _. Arguments SetV {A} _ _ _. Arguments SetM {A} _ _ _ _. Arguments SetB {A} _ _. Arguments Raise {A} _. Arguments Undefined {A}.
Definition after {A} (e : effect A) (ms : values A) : values A :=
  match e with
  | SetS d a => mkValues (put_at (scalar_of ms) d a) (vector_of ms) (matrix_of ms) (truth_of ms)
  | SetV d n v => mkValues (scalar_of ms) (put_at (vector_of ms) d (n, v)) (matrix_of ms) (truth_of ms)
  | SetM d r c g => mkValues (scalar_of ms) (vector_of ms) (put_at (matrix_of ms) d (r, c, g)) (truth_of ms)
  | SetB d b => mkValues (scalar_of ms) (vector_of ms) (matrix_of ms) (put_at (truth_of ms) d b)
  | Raise _ | Undefined => ms
  end.

Section Meaning.
Context {A : Type} (G : algebra A).
Definition pm (o : addsub) : A -> A -> A := match o with Plus => fadd G | Minus => fsub G end.
Definition sum (n : nat) (f : nat -> A) : A := sum_to (zero G) (fadd G) n f.
Definition cross_product (v w : nat -> A) : nat -> A := cross_at (fsub G) (fmul G) v w.
Definition all_equal (n : nat) (f g : nat -> A) : bool := forallb (fun i => feq G (f i) (g i)) (seq 0 n).

Definition means (ms : values A) (c : lcall) (e : effect A) : Prop :=
  let s := scalar_of ms in
  let size a := fst (vector_of ms a) in let v a := snd (vector_of ms a) in
  let rows a := fst (fst (matrix_of ms a)) in let cols a := snd (fst (matrix_of ms a)) in let m a := snd (matrix_of ms a) in
  let same a b := (rows a =? rows b) && (cols a =? cols b) in
  match c with
  | Lit d k => e = SetS d (lit G k)
  | SNeg d a => e = SetS d (fneg G (s a))
  | SAddSub o d a b => e = SetS d (pm o (s a) (s b))
  | SMul d a b => e = SetS d (fmul G (s a) (s b))
  | SDiv d a b => e = if feq G (s b) (zero G) then Raise DivideByZero else SetS d (fdiv G (s a) (s b))
  | VNew d n => e = SetV d n (fun _ => zero G)
  | VConst d n x => e = SetV d n (fun _ => s x)
  | VFill d x => e = SetV d (size d) (fun _ => s x)
  | VCopy d a => e = SetV d (size a) (v a)
  | VGet d a i => e = if i <? size a then SetS d (v a i) else Undefined
  | VSet d i x => e = if i <? size d then SetV d (size d) (fun j => if j =? i then s x else v d j) else Undefined
  | VAddSub o d a b => e = if size a =? size b then SetV d (size a) (fun i => pm o (v a i) (v b i)) else Raise InvalidArgument
  | VAssign o d b => e = if size d =? size b then SetV d (size d) (fun i => pm o (v d i) (v b i)) else Raise InvalidArgument
  | VMul d a x => e = SetV d (size a) (fun i => fmul G (v a i) (s x))
  | VMulA d x => e = SetV d (size d) (fun i => fmul G (v d i) (s x))
  | VDiv d a x => e = if (0 <? size a) && feq G (s x) (zero G) then Raise DivideByZero
                      else SetV d (size a) (fun i => fdiv G (v a i) (s x))
  | VDivA d x => e = if (0 <? size d) && feq G (s x) (zero G) then Raise DivideByZero
                     else SetV d (size d) (fun i => fdiv G (v d i) (s x))
  (* the components after the k-th are scaled by the new k-th one *)
  | VMulOwn d k => e = if k <? size d then SetV d (size d) (fun i =>
                         fmul G (v d i) (if i <=? k then v d k else fmul G (v d k) (v d k))) else Undefined
  | VDivOwn d k => e = if k <? size d then
                         if feq G (v d k) (zero G) then Raise DivideByZero
                         else SetV d (size d) (fun i => fdiv G (v d i) (if i <=? k then v d k else fdiv G (v d k) (v d k)))
                       else Undefined
  | VEq d a b => e = SetB d ((size a =? size b) && all_equal (size a) (v a) (v b))
  | VCat d a b => e = SetV d (size a + size b) (fun i => if i <? size a then v a i else v b (i - size a))
  | VDot d a b => e = if size a =? size b then SetS d (sum (size a) (fun i => fmul G (v a i) (v b i))) else Raise InvalidArgument
  | VCross d a b => e = if (size a =? 3) && (size b =? 3) then SetV d 3 (cross_product (v a) (v b)) else Raise InvalidArgument
  | VSTP d a b c => e = if (size a =? 3) && (size b =? 3) && (size c =? 3)
                        then SetS d (sum 3 (fun i => fmul G (v a i) (cross_product (v b) (v c) i))) else Raise InvalidArgument
  | VVTP d a b c => e = if (size a =? 3) && (size b =? 3) && (size c =? 3)
                        then SetV d 3 (cross_product (v a) (cross_product (v b) (v c))) else Raise InvalidArgument
  | MNew d r c x => e = SetM d r c (fun _ _ => s x)
  | MArray d a r c => e = if r * c <=? size a then SetM d r c (fun i j => v a (i * c + j)) else Undefined
  | MIdent d n => e = SetM d n n (fun i j => if i =? j then one G else zero G)
  | MDiag d a n => e = if n <=? size a then SetM d n n (fun i j => if i =? j then v a i else zero G) else Undefined
  | MCopy d a => e = SetM d (rows a) (cols a) (m a)
  | MGet d a i j => e = if (i <? rows a) && (j <? cols a) then SetS d (m a i j) else Undefined
  | MSet d i j x => e = if (i <? rows d) && (j <? cols d)
                        then SetM d (rows d) (cols d) (fun i' j' => if (i' =? i) && (j' =? j) then s x else m d i' j') else Undefined
  | MNeg d a => e = SetM d (rows a) (cols a) (fun i j => fneg G (m a i j))
  | MAddSub o d a b => e = if same a b then SetM d (rows a) (cols a) (fun i j => pm o (m a i j) (m b i j)) else Raise DomainError
  | MAssign o d b => e = if same d b then SetM d (rows d) (cols d) (fun i j => pm o (m d i j) (m b i j)) else Raise DomainError
  | MMul d a x => e = SetM d (rows a) (cols a) (fun i j => fmul G (s x) (m a i j))
  | MMulA d x => e = SetM d (rows d) (cols d) (fun i j => fmul G (m d i j) (s x))
  | MDiv d a x => e = if (0 <? rows a) && (0 <? cols a) && feq G (s x) (zero G) then Raise DivideByZero
                      else SetM d (rows a) (cols a) (fun i j => fdiv G (m a i j) (s x))
  | MDivA d x => e = if (0 <? rows d) && (0 <? cols d) && feq G (s x) (zero G) then Raise DivideByZero
                     else SetM d (rows d) (cols d) (fun i j => fdiv G (m d i j) (s x))
  (* the entries after the (p, q)-th, row by row, are scaled by the new one *)
  | MMulOwn d p q => e = if (p <? rows d) && (q <? cols d) then SetM d (rows d) (cols d) (fun i j =>
                           fmul G (m d i j) (if i * cols d + j <=? p * cols d + q then m d p q else fmul G (m d p q) (m d p q)))
                         else Undefined
  | MDivOwn d p q => e = if (p <? rows d) && (q <? cols d) then
                           if feq G (m d p q) (zero G) then Raise DivideByZero
                           else SetM d (rows d) (cols d) (fun i j =>
                             fdiv G (m d i j) (if i * cols d + j <=? p * cols d + q then m d p q else fdiv G (m d p q) (m d p q)))
                         else Undefined
  | MProd d a b => e = if cols a =? rows b then SetM d (rows a) (cols b) (fun i j => sum (cols a) (fun k => fmul G (m a i k) (m b k j)))
                       else Raise DomainError
  | MProdA d b => e = if cols d =? rows b then SetM d (rows d) (cols b) (fun i j => sum (cols d) (fun k => fmul G (m d i k) (m b k j)))
                      else Raise DomainError
  | MEq d a b => e = SetB d (same a b && forallb (fun i => all_equal (cols a) (m a i) (m b i)) (seq 0 (rows a)))
  | MTrans d a => e = SetM d (cols a) (rows a) (fun i j => m a j i)
  | MTrace d a => e = if rows a =? cols a then SetS d (sum (rows a) (fun i => m a i i)) else Raise DomainError
  | MMinor d a i j => e = if (0 <? rows a) && (0 <? cols a)
                          then SetM d (rows a - 1) (cols a - 1) (fun k l => m a (if k <? i then k else S k) (if l <? j then l else S l))
                          else Undefined
  | MCof d a i j => e = if (0 <? rows a) && (0 <? cols a)
                        then SetM d (rows a - 1) (cols a - 1) (fun k l =>
                          let x := m a (if k <? i then k else S k) (if l <? j then l else S l) in if Nat.odd (i + j) then fneg G x else x)
                        else Undefined
  | MAug d a b => e = if rows a =? rows b
                      then SetM d (rows a) (cols a + cols b) (fun i j => if j <? cols a then m a i j else m b i (j - cols a))
                      else Raise DomainError
  (* the expansions of a matrix without rows are empty sums *)
  | MRow d a | MCol d a => e = if rows a =? cols a then SetS d (if rows a =? 0 then zero G else fdet G (rows a) (m a)) else Raise DomainError
  | MDet d a => e = if rows a =? cols a then SetS d (fdet G (rows a) (m a)) else Raise DomainError
  | MRref d a => exists h, is_reduced G (rows a) (cols a) (m a) h /\ e = SetM d (rows a) (cols a) h
  | MRrefA d => exists h, is_reduced G (rows d) (cols d) (m d) h /\ e = SetM d (rows d) (cols d) h
  | MInv d a => if rows a =? cols a
                then if feq G (fdet G (rows a) (m a)) (zero G) then e = Raise DomainError
                     else exists h, is_inverse G (rows a) (m a) h /\ e = SetM d (rows a) (rows a) h
                else e = Raise DomainError
  end.

(** A program: the calls in order, exceptions being caught and noted. *)
Definition thrown (e : effect A) : option exn := match e with Raise x => Some x | _ => None end.
Inductive computes : values A -> list lcall -> values A -> list (option exn) -> Prop :=
| computes_nil ms : computes ms [] ms []
| computes_cons ms c e p ms' l : means ms c e -> e <> Undefined -> computes (after e ms) p ms' l ->
    computes ms (c :: p) ms' (thrown e :: l).
(** It comes to a call that the language does not define. *)
Inductive strays : values A -> list lcall -> Prop :=
| strays_here ms c p : means ms c Undefined -> strays ms (c :: p)
| strays_later ms c e p : means ms c e -> e <> Undefined -> strays (after e ms) p -> strays ms (c :: p).
End Meaning.

(** Features a program may use. *)
Inductive feature :=
| FLit (k : Z)   (* the literal k *)
| FNull          (* the literals 0 and 1 converted to an element *)
| FNeg           (* the elements' unary minus *)
| FMulA          (* their *= *)
| FDiv           (* their / *)
| FDivA          (* their /= *)
| FExpand        (* cofactor expansion, which compares elements with 0 *)
| FField.        (* the algorithms that need a field *)
Definition uses (c : lcall) : list feature :=
  match c with
  | Lit _ k => [FLit k]
  | VNew _ _ | VConst _ _ _ | VCat _ _ _ | MIdent _ _ | MDiag _ _ _ => [FNull]
  | SNeg _ _ | MNeg _ _ | MCof _ _ _ _ => [FNeg]
  | VMul _ _ _ | VMulA _ _ | VMulOwn _ _ | MMulA _ _ | MMulOwn _ _ _ => [FMulA]
  | SDiv _ _ _ | MDiv _ _ _ => [FDiv]
  | VDiv _ _ _ | VDivA _ _ | VDivOwn _ _ | MDivA _ _ | MDivOwn _ _ _ => [FDivA]
  | MRow _ _ | MCol _ _ => [FExpand]
  | MDet _ _ | MRref _ _ | MRrefA _ | MInv _ _ => [FField]
  | _ => []
  end.
