(** Programs over rationals, 1/0, -1/0 and 0/0: what client programs of Frac calls compute when every
    exception is caught. *)
From Coq Require Import QArith Qpower Ascii.
From Verif Require Import Base IntModel IntSpec IntPowExact IOSpec FracModel FracSpec PropsFrac FracHistory ExtSpec CatchModel.
Local Open Scope Z_scope.

(** None is 0/0 *)
Definition xval := option ext.
Definition is_x (f : Frac) (v : xval) : Prop := match v with Some e => is_ext f e | None => is_nan f end.

(** 0/0 spoils every result *)
Definition both (op : ext -> ext -> option ext) (x y : xval) : xval :=
  match x, y with Some a, Some b => op a b | _, _ => None end.
Definition x_op (o : fop) : xval -> xval -> xval :=
  match o with
  | FAdd => both e_add
  | FSub => both (fun a b => e_add a (e_opp b))
  | FMul => both e_mul
  | FDiv => both e_div
  end.
(** x ^ n: anything to the power 0 is 1, even 1/0 and 0/0. *)
Definition x_pow (x : xval) (n : Z) : xval :=
  if n =? 0 then Some (Fin 1)
  else match x with
       | None => None
       | Some (Inf s) => if n <? 0 then Some (Fin 0) else Some (Inf (s && Z.odd n))
       | Some (Fin q) => if zero_Q q && (n <? 0) then None else Some (Fin (q ^ n))
       end.
(** 0/0 is below nothing and above nothing, and is equal to itself *)
Definition x_lt (x y : xval) : Prop := match x, y with Some a, Some b => e_lt a b | _, _ => False end.
Definition x_eq (x y : xval) : Prop :=
  match x, y with Some a, Some b => e_eq a b | None, None => True | _, _ => False end.
Definition x_cmp (c : fcmp) (x y : xval) : Prop :=
  match c with
  | CEq => x_eq x y
  | CNe => ~ x_eq x y
  | CLt => x_lt x y
  | CGt => x_lt y x
  | CLe => ~ x_lt y x
  | CGe => ~ x_lt x y
  end.

Definition int_x (a : Int) : xval := Some (Fin (inject_Z (val a))).
(** d = v for a function that returns a new Frac: rationals only; the exception otherwise *)
Inductive sets_new (xs : nat -> xval) (d : nat) : xval -> (nat -> xval) -> event -> Prop :=
| sn_ok q : sets_new xs d (Some (Fin q)) (fupd xs d (Some (Fin q))) Done
| sn_throw v : (forall q, v <> Some (Fin q)) -> sets_new xs d v xs (Caught DivideByZero).
(** d = v for an operator in place: the object takes the value, with the exception if it is 0/0 *)
Inductive sets_in_place (xs : nat -> xval) (d : nat) : xval -> (nat -> xval) -> event -> Prop :=
| si_ok e : sets_in_place xs d (Some e) (fupd xs d (Some e)) Done
| si_throw : sets_in_place xs d None (fupd xs d None) (Caught DivideByZero).
Inductive xexec (xs : nat -> xval) : stmt -> (nat -> xval) -> event -> Prop :=
| xe_default d : xexec xs (Do (HDefault d)) (fupd xs d (Some (Fin 0))) Done
| xe_ofint d a : xexec xs (Do (HOfInt d a)) (fupd xs d (int_x a)) Done
| xe_make d a b xs' ev : sets_new xs d (x_op FDiv (int_x a) (int_x b)) xs' ev -> xexec xs (Do (HMake d a b)) xs' ev
| xe_string d s n m : frac_string s n m -> m <> 0 -> xexec xs (Do (HString d s)) (fupd xs d (Some (Fin (inject_Z n / inject_Z m)))) Done
| xe_bad d s : (forall n m, frac_string s n m -> m = 0) -> xexec xs (Do (HString d s)) xs (Caught InvalidArgument)
| xe_copy d a : xexec xs (Do (HCopy d a)) (fupd xs d (xs a)) Done
| xe_recip d a xs' ev : sets_new xs d (x_op FDiv (Some (Fin 1)) (xs a)) xs' ev -> xexec xs (Do (HRecip d a)) xs' ev
| xe_bin o d a b xs' ev : sets_new xs d (x_op o (xs a) (xs b)) xs' ev -> xexec xs (Do (HBin o d a b)) xs' ev
| xe_intl o d a b xs' ev : sets_new xs d (x_op o (int_x a) (xs b)) xs' ev -> xexec xs (Do (HIntL o d a b)) xs' ev
| xe_intr o d a b xs' ev : sets_new xs d (x_op o (xs a) (int_x b)) xs' ev -> xexec xs (Do (HIntR o d a b)) xs' ev
| xe_pow d a n xs' ev : sets_new xs d (x_pow (xs a) (val n)) xs' ev -> xexec xs (Do (HPow d a n)) xs' ev
| xe_assign o d b xs' ev : sets_in_place xs d (x_op o (xs d) (xs b)) xs' ev -> xexec xs (Do (HAssign o d b)) xs' ev
| xe_iassign o d b xs' ev : sets_in_place xs d (x_op o (xs d) (int_x b)) xs' ev -> xexec xs (Do (HIAssign o d b)) xs' ev
| xe_powassign d n xs' ev : sets_in_place xs d (x_pow (xs d) (Z.abs (val n))) xs' ev -> xexec xs (Do (HPowAssign d n)) xs' ev
| xe_cmp c a b r : (r = true <-> x_cmp c (xs a) (xs b)) -> xexec xs (Cmp c a b) xs (Said r).
Inductive xrun : (nat -> xval) -> list stmt -> (nat -> xval) -> list event -> Prop :=
| xr_nil xs : xrun xs [] xs []
| xr_cons xs s xs' ev p xs'' tr : xexec xs s xs' ev -> xrun xs' p xs'' tr -> xrun xs (s :: p) xs'' (ev :: tr).

(** Int arguments in the form every Int function leaves; exponents whose power the library gets right. *)
Definition legal (s : stmt) : Prop :=
  match s with
  | Do (HOfInt _ a) | Do (HIntL _ _ a _) | Do (HIntR _ _ _ a) | Do (HIAssign _ _ a) => canonical a
  | Do (HMake _ a b) => canonical a /\ canonical b
  | Do (HPow _ _ n) | Do (HPowAssign _ n) => canonical n /\ exact_exponent (Z.abs (val n))
  | _ => True
  end.
(** No statement gives d a fresh value, and none raises it to the power 0. *)
Definition only_updates (d : nat) (s : stmt) : Prop :=
  match s with
  | Do (HDefault e) | Do (HOfInt e _) | Do (HMake e _ _) | Do (HString e _) | Do (HCopy e _) | Do (HRecip e _)
  | Do (HBin _ e _ _) | Do (HIntL _ e _ _) | Do (HIntR _ e _ _) | Do (HPow e _ _) => e <> d
  | Do (HPowAssign e n) => e = d -> val n <> 0
  | _ => True
  end.
(** s changes d in place *)
Definition in_place_on (d : nat) (s : stmt) : Prop :=
  match s with
  | Do (HAssign _ e _) | Do (HIAssign _ e _) | Do (HPowAssign e _) => e = d
  | _ => False
  end.
