(** What programs of Int calls without assertions should do, over the integers. Of the model
    only the names of calls (IntCalls.v) and of their endings are used. *)
From Coq Require Import ZArith.
From Verif Require Import Base IOSpec PropsInt IntCalls ReleaseCallsModel.
Local Open Scope list_scope.
Local Open Scope Z_scope.

(** x += y or x -= y that throws: x has its old absolute value, or already that of the
    answer where |y| < |x|. Its sign is gone. *)
Definition sum_left (x y v : Z) : Prop :=
  v = if Z.abs y <? Z.abs x then Z.abs x - Z.abs y else Z.abs x.
(** x /= y that throws: the digits of x below one that is zero, at which the digits above it
    are worth less than y. Digits are in base 10^9. *)
Definition digits_left (x y v : Z) : Prop :=
  Z.abs y <= Z.abs x /\
  exists j, 1 <= j /\ (Z.abs x / (10 ^ 9) ^ j) mod 10 ^ 9 = 0 /\ Z.abs x / (10 ^ 9) ^ (j + 1) < Z.abs y /\
    v = Z.sgn x * (Z.abs x mod (10 ^ 9) ^ j).
(** What a call may leave in its destination when it throws std::out_of_range *)
Definition zleft (zs : nat -> Z) (c : call) (v : Z) : Prop :=
  match c with
  | Assign Add d b => zs d * zs b <= 0 /\ sum_left (zs d) (zs b) v
  | Assign Sub d b => 0 <= zs d * zs b /\ sum_left (zs d) (zs b) v
  | Assign Div d b => digits_left (zs d) (zs b) v
  | Scale d p => exists k, 0 <= k < - p /\ digits_left (Z.quot (zs d) (10 ^ k)) 10 v
  | _ => v = zs (dest c)
  end.
(** What a call does to the integers, and what it shows *)
Definition zattempt (zs : nat -> Z) (c : call) (e : ending) (zs' : nat -> Z) : Prop :=
  (forall n, n <> dest c -> zs' n = zs n) /\
  match e with
  | Finished => zvalue zs c (zs' (dest c))
  | Caught DivideByZero => divides_by_zero zs c /\ zs' (dest c) = zs (dest c)
  | Caught InvalidArgument => (exists d t, c = Parse d t /\ forall z, ~ int_text t z) /\ zs' (dest c) = zs (dest c)
  | Caught OutOfRange => may_assert c /\ zleft zs c (zs' (dest c))
  | Caught DomainError => False
  end.
Inductive zattempts : (nat -> Z) -> list call -> list ending -> (nat -> Z) -> Prop :=
| za_nil zs zs' : (forall n, zs' n = zs n) -> zattempts zs [] [] zs'
| za_cons zs c e zs1 p es zs' : zattempt zs c e zs1 -> zattempts zs1 p es zs' -> zattempts zs (c :: p) (e :: es) zs'.
