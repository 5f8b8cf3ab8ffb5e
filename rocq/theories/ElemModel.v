(** What the templates Vec<T> and Mat<T> need of T, statement sequencing, and
    the element types the repository instantiates them with. *)
From Coq Require Import QArith.
From Verif Require Import Base IntModel IOModel FracModel.
Local Open Scope Z_scope.

(** The operators of an element type. The right-hand operand of a compound
    assignment is [None] when it is the very same object as the left-hand one. A
    failing assignment leaves the element as it was. *)
Record ops (T : Type) := mkOps {
  of_int : Z -> T;                     (* T(0), T(1), conversion of the literals 0, 1, -1 *)
  fresh : option T;                    (* what new T[n] holds: None = indeterminate *)
  add : T -> T -> res T;
  sub : T -> T -> res T;
  mul : T -> T -> res T;
  div : T -> T -> res T;
  neg : T -> res T;
  eqb : T -> T -> res bool;            (* ==, and != is its negation *)
  addA : T -> option T -> res T;       (* += *)
  subA : T -> option T -> res T;
  mulA : T -> option T -> res T;
  divA : T -> option T -> res T
}.
Arguments of_int {T} _ _.
Arguments fresh {T} _.
Arguments add {T} _ _ _.
Arguments sub {T} _ _ _.
Arguments mul {T} _ _ _.
Arguments div {T} _ _ _.
Arguments neg {T} _ _.
Arguments eqb {T} _ _ _.
Arguments addA {T} _ _ _.
Arguments subA {T} _ _ _.
Arguments mulA {T} _ _ _.
Arguments divA {T} _ _ _.

(** Statements that modify an object of type S: the final object and how
    control left. *)
Definition outcome (S : Type) := (S * res unit)%type.
Definition done {S} (s : S) : outcome S := (s, Ok tt).
Definition andthen {S} (p : outcome S) (k : S -> outcome S) : outcome S :=
  match p with (s, Ok _) => k s | _ => p end.
(** Evaluate an expression in state s, then continue. *)
Definition eval {S A} (s : S) (m : res A) (k : A -> outcome S) : outcome S :=
  match m with
  | Ok a => k a
  | Throw e => (s, Throw e)
  | Abort => (s, Abort)
  | UB => (s, UB)
  | OutOfFuel => (s, OutOfFuel)
  end.
(** The final object, or the failure. *)
Definition final {S} (p : outcome S) : res S := _ <- snd p ;; Ok (fst p).
(** for (size_t i = a; i < a + n; ++i) body *)
Fixpoint for_ {S} (n a : nat) (body : nat -> S -> outcome S) (s : S) : outcome S :=
  match n with
  | O => done s
  | Datatypes.S n' => andthen (body a s) (for_ n' (Datatypes.S a) body)
  end.
(** for (size_t i = a; i < b; ++i) body *)
Definition for_to {S} (a b : nat) (body : nat -> S -> outcome S) (s : S) : outcome S := for_ (b - a) a body s.

(** data[i] of a std::vector or array: undefined outside *)
Definition get_at {A} (l : list A) (i : nat) : res A :=
  match nth_error l i with Some x => Ok x | None => UB end.
Fixpoint replace {A} (l : list A) (i : nat) (x : A) : list A :=
  match l, i with
  | [], _ => []
  | _ :: l', O => x :: l'
  | y :: l', Datatypes.S i' => y :: replace l' i' x
  end.

(** *** T = Int (src/Int.hpp) *)
Definition int_const (k : Z) : Int := match Int_of_int64 k 0 with Ok x => x | _ => Int_default end.
Definition Int_ops : ops Int := {|
  of_int := int_const; fresh := Some Int_default;
  add := op_add; sub := op_sub; mul := op_mul; div := op_div; neg := op_neg; eqb := op_eq;
  addA := add_assign; subA := sub_assign; mulA := mul_assign; divA := div_assign |}.

(** *** T = Frac (src/Frac.hpp). Only constructions that need no conversion of an
    int literal compile for Frac; [of_int] is used by T(0) alone. There is no
    unary minus. A failing operator may leave a changed Frac behind, which is
    represented in LeaveModel, not here. *)
Definition frac_const (k : Z) : Frac := match Frac_of_int k with Ok f => f | _ => mkFrac Int_default Int_default end.
Definition Frac_ops : ops Frac := {|
  of_int := frac_const; fresh := Some (frac_const 0);
  add := F_add; sub := F_sub; mul := F_mul; div := F_div; neg := fun _ => UB; eqb := F_eq;
  addA := fun x y => result (F_add_assign x y); subA := fun x y => result (F_sub_assign x y);
  mulA := fun x y => result (F_mul_assign x y); divA := fun x y => result (F_div_assign x y) |}.

(** *** T = int: overflow, division by zero and INT_MIN / -1 are undefined. *)
Definition int32_div (x y : Z) : res Z := if y =? 0 then UB else i32 (Z.quot x y).
Definition int32_ops : ops Z := {|
  of_int := fun k => k; fresh := None;
  add := fun x y => i32 (x + y); sub := fun x y => i32 (x - y); mul := fun x y => i32 (x * y);
  div := int32_div; neg := fun x => i32 (- x); eqb := fun x y => Ok (x =? y);
  addA := fun x y => i32 (x + rd x y); subA := fun x y => i32 (x - rd x y); mulA := fun x y => i32 (x * rd x y);
  divA := fun x y => int32_div x (rd x y) |}.

(** *** T = a type with exact arithmetic, given by total functions. Division by
    zero throws. Aliasing is harmless: the operand is read before writing. *)
Definition exact_ops {T : Type} (z : Z -> T) (fr : option T) (a s m d : T -> T -> T) (n : T -> T) (e : T -> T -> bool) : ops T := {|
  of_int := z; fresh := fr;
  add := fun x y => Ok (a x y); sub := fun x y => Ok (s x y); mul := fun x y => Ok (m x y);
  div := fun x y => if e y (z 0) then Throw DivideByZero else Ok (d x y);
  neg := fun x => Ok (n x); eqb := fun x y => Ok (e x y);
  addA := fun x y => Ok (a x (rd x y)); subA := fun x y => Ok (s x (rd x y)); mulA := fun x y => Ok (m x (rd x y));
  divA := fun x y => if e (rd x y) (z 0) then Throw DivideByZero else Ok (d x (rd x y)) |}.
