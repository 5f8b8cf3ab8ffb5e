(** Vec<Int>, Mat<Int>, Vec<Frac> and Mat<Frac> when assertions are compiled out (see
    ReleaseModel.v). Vec.hpp and Mat.hpp contain no assertion themselves, so the templates
    are those of VecModel.v and MatModel.v, run with the operators of Int and Frac that
    ReleaseModel.v and FracReleaseModel.v describe. As everywhere in those two files, a
    failing operator leaves the element as it was; for the compound assignments the element
    it really leaves is that of LeaveModel.v, run with [div_assign_nd] and the like. *)
From Verif Require Import Base IntModel IOModel FracModel ElemModel ReleaseModel FracReleaseModel.

(** T = Int -- src/Int.hpp:59-79; unary minus and == have no assertion to lose *)
Definition Int_ops_nd : ops Int := {|
  of_int := int_const; fresh := Some Int_default;
  add := op_add_nd; sub := op_sub_nd; mul := op_mul_nd; div := op_div_nd; neg := op_neg; eqb := op_eq;
  addA := add_assign_nd; subA := sub_assign_nd; mulA := mul_assign_nd; divA := fun x y => finish (div_assign_nd x y) |}.

(** T = Frac -- src/Frac.hpp:40-70 *)
Definition Frac_ops_nd : ops Frac := {|
  of_int := frac_const; fresh := Some (frac_const 0);
  add := F_add_nd; sub := F_sub_nd; mul := F_mul_nd; div := F_div_nd; neg := fun _ => UB; eqb := F_eq;
  addA := fun x y => result (F_add_assign_nd x y); subA := fun x y => result (F_sub_assign_nd x y);
  mulA := fun x y => result (F_mul_assign_nd x y); divA := fun x y => result (F_div_assign_nd x y) |}.
