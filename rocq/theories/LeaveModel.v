(** Compound assignments of Vec and Mat with an element operator that may change its
    left operand and then throw (as those of Frac do): the changed element stays in
    the container. VecModel and MatModel leave that element as it was. *)
From Verif Require Import Base IntModel IOModel FracModel ElemModel VecModel MatModel.
Local Open Scope list_scope.
Local Open Scope nat_scope.

Section Leave.
Variable T : Type.
(** x op= y: what is left in x, and how control left. [None]: y is x. *)
Definition lop := T -> option T -> outcome T.
Implicit Type op : lop.

(** ** Vec *)
Definition assign_at' op (x : list T) (i : nat) (y : option T) : outcome (list T) :=
  eval x (get_at x i) (fun e => (replace x i (fst (op e y)), snd (op e y))).
(** x += y, x -= y -- src/Vec.hpp:167-181 *)
Definition vec_assign' op (x : list T) (y : option (list T)) : outcome (list T) :=
  if negb (length x =? length (rd x y)) then (x, Throw InvalidArgument)
  else for_ (length x) 0 (fun i d => eval d (get_at (rd d y) i) (fun e => assign_at' op d i (Some e))) x.
(** x *= a, x /= a -- src/Vec.hpp:183-193 *)
Definition scale_assign' op (x : list T) (a : @scalar T) : outcome (list T) :=
  for_ (length x) 0 (fun i d =>
    match a with
    | Val v => assign_at' op d i (Some v)
    | Elem k => if i =? k then assign_at' op d i None else eval d (get_at d k) (fun v => assign_at' op d i (Some v))
    end) x.

(** ** Mat *)
Definition assign_entry' op (m : Mat T) (i j : nat) (y : option T) : outcome (Mat T) :=
  eval m (entry m i j) (fun e => andthen (set_entry m i j (fst (op e y))) (fun m' => (m', snd (op e y)))).
(** a += b, a -= b -- src/Mat.hpp:171-178, 191-198 *)
Definition mat_assign' op (a : Mat T) (b : option (Mat T)) : outcome (Mat T) :=
  if negb (same_dims a (rd a b)) then (a, Throw DomainError)
  else for2 (rows a) (cols a) (fun i j d => eval d (entry (rd d b) i j) (fun y => assign_entry' op d i j (Some y))) a.
(** m *= s, m /= s -- src/Mat.hpp:214-219, 230-235 *)
Definition mat_scale_assign' op (m : Mat T) (s : @mscalar T) : outcome (Mat T) :=
  for2 (rows m) (cols m) (fun i j d =>
    match s with
    | MVal a => assign_entry' op d i j (Some a)
    | MElem p q => if (i =? p) && (j =? q) then assign_entry' op d i j None
                     else eval d (entry d p q) (fun a => assign_entry' op d i j (Some a))
    end) m.
End Leave.
Arguments assign_at' {T}.
Arguments vec_assign' {T}.
Arguments scale_assign' {T}.
Arguments assign_entry' {T}.
Arguments mat_assign' {T}.
Arguments mat_scale_assign' {T}.
