(** Running the same template code with two element types: where the first run
    returns, the second one returns a related result. *)
From Coq Require Import QArith SpecFloat.
From Verif Require Import Base IntModel IntSpec ElemModel ElemSpec VecModel MatModel FracModel FracSpec CommonModel CommonSpec Int32Spec.
Local Open Scope Q_scope.

(** m' returns a value related to that of m (or stops as [ab] allows) whenever m
    returns *)
Definition sim (ab : halt -> Prop) {A B} (R : A -> B -> Prop) (m : res A) (m' : res B) : Prop :=
  forall a, m = Ok a -> ret ab m' (R a).
(** the same for statements and the objects they leave *)
Definition ssim (ab : halt -> Prop) {A B} (R : A -> B -> Prop) (p : outcome A) (p' : outcome B) : Prop :=
  forall s, p = (s, Ok tt) -> sret ab p' (R s).
(** an element of the first array that holds no value says nothing about the second *)
Definition opt {A B} (R : A -> B -> Prop) (x : option A) (y : option B) : Prop :=
  match x, y with None, _ => True | Some a, Some b => R a b | Some _, None => False end.
Definition vec_sim {A B} (R : A -> B -> Prop) : list A -> list B -> Prop := Forall2 R.
Definition mat_sim {A B} (R : A -> B -> Prop) (x : Mat A) (y : Mat B) : Prop :=
  rows x = rows y /\ cols x = cols y /\ Forall2 (opt R) (data x) (data y).

(** an operand that may be the object itself *)
Definition option_rel {A B} (R : A -> B -> Prop) (x : option A) (y : option B) : Prop :=
  match x, y with None, None => True | Some a, Some b => R a b | _, _ => False end.
Definition scalar_sim {A B} (R : A -> B -> Prop) (x : scalar) (y : scalar) : Prop :=
  match x, y with Val a, Val b => R a b | Elem i, Elem j => i = j | _, _ => False end.
Definition mscalar_sim {A B} (R : A -> B -> Prop) (x : mscalar) (y : mscalar) : Prop :=
  match x, y with MVal a, MVal b => R a b | MElem i j, MElem k l => i = k /\ j = l | _, _ => False end.

(** what is needed of the operators, without and with division *)
Record ring_sim (ab : halt -> Prop) {A B} (R : A -> B -> Prop) (E : ops A) (E' : ops B) : Prop := {
  sim_const : forall k, In k [0; 1; -1]%Z -> R (of_int E k) (of_int E' k);
  sim_fresh : opt R (fresh E) (fresh E');
  sim_add : forall x y x' y', R x x' -> R y y' -> sim ab R (add E x y) (add E' x' y');
  sim_sub : forall x y x' y', R x x' -> R y y' -> sim ab R (sub E x y) (sub E' x' y');
  sim_mul : forall x y x' y', R x x' -> R y y' -> sim ab R (mul E x y) (mul E' x' y');
  sim_neg : forall x x', R x x' -> sim ab R (neg E x) (neg E' x');
  sim_eqb : forall x y x' y', R x x' -> R y y' -> sim ab eq (eqb E x y) (eqb E' x' y');
  sim_addA : forall x y x' y', R x x' -> option_rel R y y' -> sim ab R (addA E x y) (addA E' x' y');
  sim_subA : forall x y x' y', R x x' -> option_rel R y y' -> sim ab R (subA E x y) (subA E' x' y')
}.
Record div_sim (ab : halt -> Prop) {A B} (R : A -> B -> Prop) (E : ops A) (E' : ops B) : Prop := {
  sim_div : forall x y x' y', R x x' -> R y y' -> sim ab R (div E x y) (div E' x' y');
  sim_divA : forall x y x' y', R x x' -> option_rel R y y' -> sim ab R (divA E x y) (divA E' x' y')
}.
(** x *= y may leave its result in another form, R0, than the other operations; a
    product formed that way is divided by another one at the end of determinant() *)
Record prod_sim (ab : halt -> Prop) {A B} (R R0 : A -> B -> Prop) (E : ops A) (E' : ops B) : Prop := {
  sim_weaker : forall x x', R x x' -> R0 x x';
  sim_mulA : forall x y x' y', R0 x x' -> R y y' -> sim ab R0 (mulA E x (Some y)) (mulA E' x' (Some y'));
  sim_ratio : forall x y x' y', R0 x x' -> R0 y y' -> sim ab R (div E x y) (div E' x' y')
}.

(** exact arithmetic on the rationals that stops at the first result [ok] rejects and
    at a division by zero *)
Definition watch (ok : Q -> bool) (q : Q) : res Q := let r := Qred q in if ok r then Ok r else UB.
Definition watched_div (ok : Q -> bool) (x y : Q) : res Q := if Qeq_bool y 0 then UB else watch ok (x / y).
Definition watched (ok : Q -> bool) : ops Q := {|
  of_int := inject_Z; fresh := None;
  add := fun x y => watch ok (x + y); sub := fun x y => watch ok (x - y); mul := fun x y => watch ok (x * y);
  div := watched_div ok; neg := fun x => watch ok (- x); eqb := fun x y => Ok (Qeq_bool x y);
  addA := fun x y => watch ok (x + rd x y); subA := fun x y => watch ok (x - rd x y);
  mulA := fun x y => watch ok (x * rd x y); divA := fun x y => watched_div ok x (rd x y) |}.

(** exact arithmetic on the integers that stops at the first result [ok] rejects and
    divides by 1 and -1 only *)
Definition kept (ok : Z -> bool) (z : Z) : res Z := if ok z then Ok z else UB.
Definition unit_div (ok : Z -> bool) (x y : Z) : res Z := if (Z.abs y =? 1)%Z then kept ok (x * y)%Z else UB.
Definition units (ok : Z -> bool) : ops Z := {|
  of_int := fun k => k; fresh := None;
  add := fun x y => kept ok (x + y)%Z; sub := fun x y => kept ok (x - y)%Z; mul := fun x y => kept ok (x * y)%Z;
  div := unit_div ok; neg := fun x => kept ok (- x)%Z; eqb := fun x y => Ok (x =? y)%Z;
  addA := fun x y => kept ok (x + rd x y)%Z; subA := fun x y => kept ok (x - rd x y)%Z;
  mulA := fun x y => kept ok (x * rd x y)%Z; divA := fun x y => unit_div ok x (rd x y) |}.

(** objects that hold a given rational number: a finite double, an int *)
Definition is_double (q : Q) (d : spec_float) : Prop := double d /\ finite d /\ dval d == q.
Definition is_int32 (q : Q) (z : Z) : Prop := fits z /\ inject_Z z == q.
(** a quotient of integers up to 7*10^8, and a reduced fraction with such parts *)
Definition small_ratio (q : Q) : bool := ((Z.abs (Qnum q) <=? 700000000) && (Zpos (Qden q) <=? 700000000))%Z%bool.
Definition is_frac (q : Q) (f : Frac) : Prop := reduced f /\ Fval f == q /\ (Z.abs (val (top f)) <= 700000000 /\ val (bot f) <= 700000000)%Z.
(** an Int with P, in canonical form; perhaps with redundant zero bins if it is 0 *)
Definition is_Int (P : Z -> Prop) (q : Q) (x : Int) : Prop := canonical x /\ P (val x) /\ inject_Z (val x) == q.
Definition is_Int0 (P : Z -> Prop) (q : Q) (x : Int) : Prop :=
  wf x /\ (val x <> 0%Z -> trimmed (bins x)) /\ P (val x) /\ inject_Z (val x) == q.
(** [ok] accepts only numbers that some object of the type holds *)
Definition representable {T} (R : Q -> T -> Prop) (ok : Q -> bool) : Prop := forall q, ok q = true -> exists x, R q x.

(** m' returns something related to what m returns, if m returns; statements likewise *)
Definition follows {A B} (R : A -> B -> Prop) (m : res A) (m' : res B) : Prop := forall a, m = Ok a -> exists b, m' = Ok b /\ R a b.
Definition sfollows {A B} (R : A -> B -> Prop) (p : outcome A) (p' : outcome B) : Prop :=
  forall s, p = (s, Ok tt) -> exists t, p' = (t, Ok tt) /\ R s t.
(** a finite double whose value is the integer z *)
Definition whole (d : spec_float) (z : Z) : Prop := double d /\ finite d /\ dval d == inject_Z z.
(** the integers from which on not every integer is a double *)
Definition exact_limit : Z := 9007199254740992.
(** the matrix with entries g i j *)
Definition table {A} (r c : nat) (g : nat -> nat -> A) : Mat A :=
  mkMat r c (map (fun k => Some (g (k / c) (k mod c))%nat) (seq 0 (r * c))).
(** p 0 * ... * p (n-1) *)
Definition zproduct (n : nat) (p : nat -> Z) : Z := sum_to 1%Z Z.mul n p.
Definition qproduct (n : nat) (p : nat -> Q) : Q := sum_to 1 Qmult n p.
(** upper triangular without zeros on the diagonal *)
Definition upper {A} (zero : A -> Prop) (n : nat) (g : nat -> nat -> A) : Prop :=
  (forall i j, (j < i < n)%nat -> zero (g i j)) /\ (forall i, (i < n)%nat -> ~ zero (g i i)).
Definition lower {A} (zero : A -> Prop) (n : nat) (g : nat -> nat -> A) : Prop := upper zero n (fun i j => g j i).
(** tests for the examples: integers; integers up to a bound; fractions with a power of
    two below 2^20 as denominator and a numerator below 2^53 *)
Definition integral (q : Q) : bool := Pos.eqb (Qden (Qred q)) 1.
Definition small_integral (b : Z) (q : Q) : bool := (integral q && (Z.abs (Qnum (Qred q)) <=? b)%Z)%bool.
Definition dyadic (q : Q) : bool :=
  let r := Qred q in ((Z.abs (Qnum r) <=? exact_limit)%Z && existsb (fun k => Pos.eqb (Qden r) (2 ^ Pos.of_succ_nat k)) (seq 0 20) || small_integral exact_limit q)%bool.
