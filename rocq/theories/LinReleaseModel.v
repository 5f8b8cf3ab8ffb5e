(** Programs of calls of Vec<Int> and Mat<Int> (lcall of LinSpec.v) when assertions are compiled
    out and every exception is caught -- src/Vec.hpp, src/Mat.hpp. The templates are run with the
    operators of Int without assertions (ContReleaseModel.v). Compound assignments go element by
    element, and the element whose operator throws keeps what that operator leaves of it
    (LeaveModel.v, with the operators of ReleaseCallsModel.v and ReleaseModel.v). inplace_rref() is
    taken from MatModel.v, where such an element is left as it was. *)
From Verif Require Import Base IntModel ElemModel VecModel MatModel LeaveModel LinSpec LinCalls ReleaseModel ReleaseCallsModel ContReleaseModel.

(** x *= y -- src/Int.cpp:241-246 *)
Definition mul_assign_left (x : Int) (y : option Int) : outcome Int := in_place x (mul_assign_nd x y).
Definition sum_assign (o : addsub) : lop Int := match o with Plus => add_assign_left | Minus => sub_assign_left end.
Definition nd_perform (st : objects Int) (c : lcall) : outcome (objects Int) :=
  let s := sc st in let v := ve st in let m := ma st in
  match c with
  (* src/Vec.hpp:167-193 *)
  | VAssign o d b => in_ve st d (vec_assign' (sum_assign o) (v d) (operand v d b))
  | VMulA d x => in_ve st d (scale_assign' mul_assign_left (v d) (Val (s x)))
  | VDivA d x => in_ve st d (scale_assign' div_assign_nd (v d) (Val (s x)))
  | VMulOwn d k => in_ve st d (scale_assign' mul_assign_left (v d) (Elem k))
  | VDivOwn d k => in_ve st d (scale_assign' div_assign_nd (v d) (Elem k))
  (* src/Mat.hpp:171-198, 214-235 *)
  | MAssign o d b => in_ma st d (mat_assign' (sum_assign o) (m d) (operand m d b))
  | MMulA d x => in_ma st d (mat_scale_assign' mul_assign_left (m d) (MVal (s x)))
  | MDivA d x => in_ma st d (mat_scale_assign' div_assign_nd (m d) (MVal (s x)))
  | MMulOwn d p q => in_ma st d (mat_scale_assign' mul_assign_left (m d) (MElem p q))
  | MDivOwn d p q => in_ma st d (mat_scale_assign' div_assign_nd (m d) (MElem p q))
  | _ => perform Int_ops_nd st c
  end.
Fixpoint nd_execute (st : objects Int) (p : list lcall) : res (objects Int * list (option exn)) :=
  match p with
  | [] => Ok (st, [])
  | c :: p' =>
      match nd_perform st c with
      | (st', Ok _) => ' (s, l) <- nd_execute st' p' ;; Ok (s, None :: l)
      | (st', Throw e) => ' (s, l) <- nd_execute st' p' ;; Ok (s, Some e :: l)
      | (_, Abort) => Abort
      | (_, UB) => UB
      | (_, OutOfFuel) => OutOfFuel
      end
  end.
