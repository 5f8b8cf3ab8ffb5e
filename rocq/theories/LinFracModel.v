(** Programs of calls of Vec<Frac> and Mat<Frac> (lcall of LinSpec.v), with every exception caught,
    in the default build and in one without assertions -- src/Vec.hpp, src/Mat.hpp, src/Frac.cpp. A
    compound assignment goes element by element, and the element whose operator throws keeps what
    that operator leaves of it (LeaveModel.v), which for Frac is often not what it was. New objects
    are made by the templates of VecModel.v and MatModel.v. *)
From Verif Require Import Base IntModel FracModel ElemModel VecModel MatModel LeaveModel LinSpec LinCalls ReleaseModel FracReleaseModel ContReleaseModel.

(** +=, -=, *= and /= of the elements *)
Record in_place_ops (T : Type) := { plus_assign : lop T; minus_assign : lop T; times_assign : lop T; over_assign : lop T }.
Arguments plus_assign {T} _. Arguments minus_assign {T} _. Arguments times_assign {T} _. Arguments over_assign {T} _.
(** src/Frac.cpp:159-182 *)
Definition Frac_in_place : in_place_ops Frac :=
  {| plus_assign := F_add_assign; minus_assign := F_sub_assign; times_assign := F_mul_assign; over_assign := F_div_assign |}.
Definition Frac_in_place_nd : in_place_ops Frac :=
  {| plus_assign := F_add_assign_nd; minus_assign := F_sub_assign_nd; times_assign := F_mul_assign_nd; over_assign := F_div_assign_nd |}.

Section In.
Context {T : Type} (E : ops T) (I : in_place_ops T).
Definition addsub_op (o : addsub) : lop T := match o with Plus => plus_assign I | Minus => minus_assign I end.
Definition perform_in (st : objects T) (c : lcall) : outcome (objects T) :=
  let s := sc st in let v := ve st in let m := ma st in
  match c with
  (* src/Vec.hpp:167-193 *)
  | VAssign o d b => in_ve st d (vec_assign' (addsub_op o) (v d) (operand v d b))
  | VMulA d x => in_ve st d (scale_assign' (times_assign I) (v d) (Val (s x)))
  | VDivA d x => in_ve st d (scale_assign' (over_assign I) (v d) (Val (s x)))
  | VMulOwn d k => in_ve st d (scale_assign' (times_assign I) (v d) (Elem k))
  | VDivOwn d k => in_ve st d (scale_assign' (over_assign I) (v d) (Elem k))
  (* src/Mat.hpp:171-198, 214-235 *)
  | MAssign o d b => in_ma st d (mat_assign' (addsub_op o) (m d) (operand m d b))
  | MMulA d x => in_ma st d (mat_scale_assign' (times_assign I) (m d) (MVal (s x)))
  | MDivA d x => in_ma st d (mat_scale_assign' (over_assign I) (m d) (MVal (s x)))
  | MMulOwn d p q => in_ma st d (mat_scale_assign' (times_assign I) (m d) (MElem p q))
  | MDivOwn d p q => in_ma st d (mat_scale_assign' (over_assign I) (m d) (MElem p q))
  | _ => perform E st c
  end.
Fixpoint execute_in (st : objects T) (p : list lcall) : res (objects T * list (option exn)) :=
  match p with
  | [] => Ok (st, [])
  | c :: p' =>
      match perform_in st c with
      | (st', Ok _) => ' (s, l) <- execute_in st' p' ;; Ok (s, None :: l)
      | (st', Throw e) => ' (s, l) <- execute_in st' p' ;; Ok (s, Some e :: l)
      | (_, Abort) => Abort
      | (_, UB) => UB
      | (_, OutOfFuel) => OutOfFuel
      end
  end.
End In.
Definition frac_perform : objects Frac -> lcall -> outcome (objects Frac) := perform_in Frac_ops Frac_in_place.
Definition frac_execute : objects Frac -> list lcall -> res (objects Frac * list (option exn)) := execute_in Frac_ops Frac_in_place.
Definition frac_perform_nd : objects Frac -> lcall -> outcome (objects Frac) := perform_in Frac_ops_nd Frac_in_place_nd.
Definition frac_execute_nd : objects Frac -> list lcall -> res (objects Frac * list (option exn)) := execute_in Frac_ops_nd Frac_in_place_nd.

(** The calls that make sense for Frac: those of LinSpec.v that need no implicit conversion of an int
    or a null pointer to an element (the Frac constructors are explicit, src/Frac.hpp:20-24), no
    comparison of an element with 0 and no unary minus. Literals are ints. *)
Definition of_frac (c : lcall) : Prop :=
  match c with
  | Lit _ k => (- 2 ^ 31 <= k < 2 ^ 31)%Z
  | SNeg _ _ | VNew _ _ | VConst _ _ _ | VCat _ _ _ | MIdent _ _ | MDiag _ _ _ | MNeg _ _ | MCof _ _ _ _
  | MRow _ _ | MCol _ _ | MDet _ _ | MRref _ _ | MRrefA _ | MInv _ _ => False
  | _ => True
  end.
