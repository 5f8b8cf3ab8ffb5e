(** The functions of VecModel and MatModel that a program of LinSpec runs, on
    objects: vectors are std::vectors, matrices arrays with their dimensions. *)
From Verif Require Import Base IntModel ElemModel VecModel MatModel LinSpec.
Local Open Scope nat_scope.
Local Open Scope list_scope.

Record objects (T : Type) := mkObjects { sc : nat -> T; ve : nat -> list T; ma : nat -> Mat T; bo : nat -> bool }.
Arguments mkObjects {T} _ _ _ _. Arguments sc {T} _ _. Arguments ve {T} _ _. Arguments ma {T} _ _. Arguments bo {T} _ _.

Section Calls.
Context {T : Type} (E : ops T).
Definition set_sc (st : objects T) d x := mkObjects (put_at (sc st) d x) (ve st) (ma st) (bo st).
Definition set_ve (st : objects T) d x := mkObjects (sc st) (put_at (ve st) d x) (ma st) (bo st).
Definition set_ma (st : objects T) d x := mkObjects (sc st) (ve st) (put_at (ma st) d x) (bo st).
Definition set_bo (st : objects T) d x := mkObjects (sc st) (ve st) (ma st) (put_at (bo st) d x).
(** d = m: nothing is assigned when m throws *)
Definition to_sc st d (m : res T) : outcome (objects T) := eval st m (fun x => done (set_sc st d x)).
Definition to_ve st d (m : res (list T)) : outcome (objects T) := eval st m (fun x => done (set_ve st d x)).
Definition to_ma st d (m : res (Mat T)) : outcome (objects T) := eval st m (fun x => done (set_ma st d x)).
Definition to_bo st d (m : res bool) : outcome (objects T) := eval st m (fun x => done (set_bo st d x)).
(** a call that changes d: what it leaves behind stays when it throws *)
Definition in_ve st d (p : outcome (list T)) : outcome (objects T) := (set_ve st d (fst p), snd p).
Definition in_ma st d (p : outcome (Mat T)) : outcome (objects T) := (set_ma st d (fst p), snd p).
(** an operand that may be the destination *)
Definition operand {B} (f : nat -> B) (d b : nat) : option B := if d =? b then None else Some (f b).

Definition perform (st : objects T) (c : lcall) : outcome (objects T) :=
  let s := sc st in let v := ve st in let m := ma st in
  match c with
  | Lit d k => to_sc st d (Ok (of_int E k))
  | SNeg d a => to_sc st d (neg E (s a))
  | SAddSub Plus d a b => to_sc st d (add E (s a) (s b))
  | SAddSub Minus d a b => to_sc st d (sub E (s a) (s b))
  | SMul d a b => to_sc st d (mul E (s a) (s b))
  | SDiv d a b => to_sc st d (div E (s a) (s b))
  | VNew d n => to_ve st d (Ok (Vec_size E n))
  | VConst d n x => to_ve st d (constantVec E n (s x))
  | VFill d x => in_ve st d (setEntries_val Ok (v d) (s x))
  | VCopy d a => to_ve st d (Vec_of_vec Ok (v a))
  | VGet d a i => to_sc st d (get_at (v a) i)
  | VSet d i x => to_ve st d (if i <? length (v d) then Ok (replace (v d) i (s x)) else UB)
  | VAddSub Plus d a b => to_ve st d (V_add E (v a) (v b))
  | VAddSub Minus d a b => to_ve st d (V_sub E (v a) (v b))
  | VAssign Plus d b => in_ve st d (V_add_assign E (v d) (operand v d b))
  | VAssign Minus d b => in_ve st d (V_sub_assign E (v d) (operand v d b))
  | VMul d a x => to_ve st d (V_scale E (s x) (v a))
  | VDiv d a x => to_ve st d (V_div E (v a) (s x))
  | VMulA d x => in_ve st d (V_mul_assign E (v d) (Val (s x)))
  | VDivA d x => in_ve st d (V_div_assign E (v d) (Val (s x)))
  | VMulOwn d k => in_ve st d (V_mul_assign E (v d) (Elem k))
  | VDivOwn d k => in_ve st d (V_div_assign E (v d) (Elem k))
  | VEq d a b => to_bo st d (V_eq E (v a) (v b))
  | VCat d a b => to_ve st d (concatenate E (v a) (v b))
  | VDot d a b => to_sc st d (dot E (v a) (v b))
  | VCross d a b => to_ve st d (cross E (v a) (v b))
  | VSTP d a b c => to_sc st d (scalar_triple_product E (v a) (v b) (v c))
  | VVTP d a b c => to_ve st d (vector_triple_product E (v a) (v b) (v c))
  | MNew d r c x => to_ma st d (Mat_val E r c (s x))
  | MArray d a r c => to_ma st d (Mat_array E (map Some (v a)) r c)
  | MIdent d n => to_ma st d (identityMatrix E n)
  | MDiag d a n => to_ma st d (diagonalMatrix E (map Some (v a)) n)
  | MCopy d a => in_ma st d (M_assign E (m d) (operand m d a))
  | MGet d a i j => to_sc st d (entry (m a) i j)
  | MSet d i j x => in_ma st d (set_entry (m d) i j (s x))
  | MNeg d a => to_ma st d (M_neg E (m a))
  | MAddSub Plus d a b => to_ma st d (M_add E (m a) (m b))
  | MAddSub Minus d a b => to_ma st d (M_sub E (m a) (m b))
  | MAssign Plus d b => in_ma st d (M_add_assign E (m d) (operand m d b))
  | MAssign Minus d b => in_ma st d (M_sub_assign E (m d) (operand m d b))
  | MMul d a x => to_ma st d (M_scale E (s x) (m a))
  | MDiv d a x => to_ma st d (M_div E (m a) (s x))
  | MMulA d x => in_ma st d (M_mul_assign E (m d) (MVal (s x)))
  | MDivA d x => in_ma st d (M_div_assign E (m d) (MVal (s x)))
  | MMulOwn d p q => in_ma st d (M_mul_assign E (m d) (MElem p q))
  | MDivOwn d p q => in_ma st d (M_div_assign E (m d) (MElem p q))
  | MProd d a b => to_ma st d (M_product E (m a) (m b))
  | MProdA d b => in_ma st d (M_product_assign E (m d) (operand m d b))
  | MEq d a b => to_bo st d (M_eq E (m a) (m b))
  | MTrans d a => to_ma st d (transpose E (m a))
  | MTrace d a => to_sc st d (trace E (m a))
  | MMinor d a i j => to_ma st d (first_minor E (m a) i j)
  | MCof d a i j => to_ma st d (cofactor E (m a) i j)
  | MAug d a b => to_ma st d (augmentedMatrix E (m a) (m b))
  | MRow d a => to_sc st d (row_cofactor_expansion E (m a))
  | MCol d a => to_sc st d (col_cofactor_expansion E (m a))
  | MDet d a => to_sc st d (determinant E (m a))
  | MRref d a => to_ma st d (rref E (m a))
  | MRrefA d => in_ma st d (inplace_rref E (m d))
  | MInv d a => to_ma st d (inverse E (m a))
  end.

(** Every exception is caught; anything else that is not a normal return ends the
    program. *)
Fixpoint execute (st : objects T) (p : list lcall) : res (objects T * list (option exn)) :=
  match p with
  | [] => Ok (st, [])
  | c :: p' =>
      match perform st c with
      | (st', Ok _) => ' (s, l) <- execute st' p' ;; Ok (s, None :: l)
      | (st', Throw e) => ' (s, l) <- execute st' p' ;; Ok (s, Some e :: l)
      | (_, Abort) => Abort
      | (_, UB) => UB
      | (_, OutOfFuel) => OutOfFuel
      end
  end.
End Calls.
