(** How the in-place loops of LeaveModel end. *)
From Coq Require Import QArith.
From Verif Require Import Base IntModel IOModel FracModel FracSpec ElemModel VecModel MatModel ExtSpec.
Local Open Scope list_scope.
Local Open Scope nat_scope.

(** p is q but for the element the failing operator has changed: same way out, and
    the same elements unless the loop failed in the element with index k. *)
Definition same_but {A} (op : A -> option A -> outcome A) (p q : outcome (list A)) : Prop :=
  snd p = snd q /\
  (fst p = fst q \/ exists k e y, nth_error (fst q) k = Some e /\ snd (op e y) = snd p /\ snd p <> Ok tt /\
                      nth_error (fst p) k = Some (fst (op e y)) /\ length (fst p) = length (fst q) /\
                      forall j, j <> k -> nth_error (fst p) j = nth_error (fst q) j).
(** Elements x worked through from the first to the last, rs being the results wanted
    (None: there is none). The loop ends with all of them, or throws at the first that
    has none, leaving 0/0 there and the rest as it was. *)
Definition works_through (x : list Frac) (rs : list (option ext)) (p : outcome (list Frac)) : Prop :=
  match snd p with
  | Ok _ => Forall2 (fun f o => exists e, o = Some e /\ is_ext f e) (fst p) rs
  | Throw e => e = DivideByZero /\ length (fst p) = length x /\
      exists k, nth_error rs k = Some None /\ (exists f, nth_error (fst p) k = Some f /\ is_nan f) /\
        (forall j, j < k -> exists f e, nth_error (fst p) j = Some f /\ nth_error rs j = Some (Some e) /\ is_ext f e) /\
        (forall j, k < j -> nth_error (fst p) j = nth_error x j)
  | Abort => True
  | UB | OutOfFuel => False
  end.
(** x op= y for two lists *)
Fixpoint zip (f : ext -> ext -> option ext) (x y : list ext) : list (option ext) :=
  match x, y with a :: x', b :: y' => f a b :: zip f x' y' | _, _ => [] end.
(** x op= a, a outside x *)
Definition all_by (f : ext -> ext -> option ext) (x : list ext) (a : ext) : list (option ext) := map (fun e => f e a) x.
(** x op= x[k], k counted from the first element: up to x[k] itself the operand is its
    old value a, afterwards the new one. *)
Fixpoint by_own (f : ext -> ext -> option ext) (x : list ext) (a : ext) (k : nat) : list (option ext) :=
  match x with
  | [] => []
  | e :: x' => f e a :: match k with
                         | O => match f a a with Some b => all_by f x' b | None => map (fun _ => None) x' end
                         | S k' => by_own f x' a k'
                         end
  end.
(** Fractions x divided by zero one after the other: assertion, or all of them infinite,
    or 0/0 and an exception at the first zero among them. *)
Definition over_zeros (x : list Frac) (p : outcome (list Frac)) : Prop :=
  snd p = Abort \/
  (snd p = Ok tt /\ Forall (fun f => ~ (Fval f == 0)%Q) x /\ fst p = map (fun f => inf (neg_Q (Fval f))) x) \/
  (snd p = Throw DivideByZero /\ exists a g b h, x = a ++ g :: b /\ Forall (fun f => ~ (Fval f == 0)%Q) a /\ (Fval g == 0)%Q /\ is_nan h /\
     fst p = map (fun f => inf (neg_Q (Fval f))) a ++ h :: b).

(** The r x c matrix with the entries l, row by row *)
Definition mat {T} (r c : nat) (l : list T) : Mat T := mkMat r c (map Some l).
Definition as_mat {T} (r c : nat) (p : outcome (list T)) : outcome (Mat T) := (mat r c (fst p), snd p).
Definition flat_scalar {T} (c : nat) (s : @mscalar T) : @scalar T := match s with MVal a => Val a | MElem p q => Elem (p * c + q) end.
Definition scalar_in {T} (c : nat) (s : @mscalar T) : Prop := match s with MVal _ => True | MElem p q => q < c end.
