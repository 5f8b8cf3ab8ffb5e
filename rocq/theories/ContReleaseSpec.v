(** Two runs of the same template code, the second without assertions. *)
From Verif Require Import Base IntModel IntSpec ElemModel VecModel MatModel FracModel FracSpec SimSpec.

(** The second run ends as the first one does, with related values; only where the first
    one fails an assertion does the second one throw std::out_of_range. *)
Definition alike {A B} (R : A -> B -> Prop) (m : res A) (m' : res B) : Prop :=
  match m, m' with
  | Ok a, Ok b => R a b
  | Throw e, Throw e' => e = e'
  | Abort, Throw OutOfRange => True
  | UB, UB => True
  | OutOfFuel, OutOfFuel => True
  | _, _ => False
  end.
(** statements *)
Definition salike {A B} (R : A -> B -> Prop) (p : outcome A) (p' : outcome B) : Prop := alike R (final p) (final p').
(** matrices whose entries are related; an entry without a value is related to none *)
Definition mat_alike {A B} (R : A -> B -> Prop) (x : Mat A) (y : Mat B) : Prop :=
  rows x = rows y /\ cols x = cols y /\ Forall2 (option_rel R) (data x) (data y).

Record ring_alike {A B} (R : A -> B -> Prop) (E : ops A) (E' : ops B) : Prop := {
  al_const : forall k, In k [0; 1; -1]%Z -> R (of_int E k) (of_int E' k);
  al_fresh : option_rel R (fresh E) (fresh E');
  al_add : forall x y x' y', R x x' -> R y y' -> alike R (add E x y) (add E' x' y');
  al_sub : forall x y x' y', R x x' -> R y y' -> alike R (sub E x y) (sub E' x' y');
  al_mul : forall x y x' y', R x x' -> R y y' -> alike R (mul E x y) (mul E' x' y');
  al_neg : forall x x', R x x' -> alike R (neg E x) (neg E' x');
  al_eqb : forall x y x' y', R x x' -> R y y' -> alike eq (eqb E x y) (eqb E' x' y');
  al_addA : forall x y x' y', R x x' -> option_rel R y y' -> alike R (addA E x y) (addA E' x' y');
  al_subA : forall x y x' y', R x x' -> option_rel R y y' -> alike R (subA E x y) (subA E' x' y')
}.
Record div_alike {A B} (R : A -> B -> Prop) (E : ops A) (E' : ops B) : Prop := {
  al_div : forall x y x' y', R x x' -> R y y' -> alike R (div E x y) (div E' x' y');
  al_divA : forall x y x' y', R x x' -> option_rel R y y' -> alike R (divA E x y) (divA E' x' y')
}.
Record prod_alike {A B} (R R0 : A -> B -> Prop) (E : ops A) (E' : ops B) : Prop := {
  al_weaker : forall x x', R x x' -> R0 x x';
  al_mulA : forall x y x' y', R0 x x' -> R y y' -> alike R0 (mulA E x (Some y)) (mulA E' x' (Some y'));
  al_ratio : forall x y x' y', R0 x x' -> R0 y y' -> alike R (div E x y) (div E' x' y')
}.

(** every entry of a matrix holds a value with P *)
Definition entries {A} (P : A -> Prop) (m : Mat A) : Prop := Forall (fun o => exists x, o = Some x /\ P x) (data m).
(** the scalar of a compound assignment has P if it is an object of its own *)
Definition own_or {A} (P : A -> Prop) (s : @scalar A) : Prop := match s with Val a => P a | Elem _ => True end.
Definition mown_or {A} (P : A -> Prop) (s : @mscalar A) : Prop := match s with MVal a => P a | MElem _ _ => True end.
Definition opt_all {A} (P : A -> Prop) (o : option A) : Prop := match o with Some a => P a | None => True end.
(** f, run with E' instead of E, returns and throws the same, but throws std::out_of_range
    where with E it fails an assertion *)
Definition released_run {T A} (E E' : ops T) (f : ops T -> res A) : Prop :=
  f E' = match f E with Abort => Throw OutOfRange | m => m end.
