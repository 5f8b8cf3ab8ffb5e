(** Programs of Frac calls in which every exception is caught and the program goes on.

    Each statement of a client program (finstr of FracHistory.v, whose calls are the functions of
    FracModel.v: src/Frac.hpp:20-79, src/Frac.cpp:100-223) runs in its own try block. A function that
    returns a new Frac leaves the variables alone when it throws; an operator in place leaves its object
    as the exception found it. Comparisons are statements too and add their answer to the trace. A failed
    assertion ends the program. *)
From Verif Require Import Base IntModel IOModel FracModel PropsFrac FracHistory.

Inductive fcmp := CEq | CNe | CLt | CGt | CLe | CGe.
(** src/Frac.hpp:40-45 *)
Definition Fcmp (c : fcmp) : Frac -> Frac -> res bool :=
  match c with CEq => F_eq | CNe => F_ne | CLt => F_lt | CGt => F_gt | CLe => F_le | CGe => F_ge end.
Inductive stmt := Do (i : finstr) | Cmp (c : fcmp) (a b : nat).
(** What a statement shows: it finished, an exception was caught, a comparison answered. *)
Inductive event := Done | Caught (e : exn) | Said (b : bool).

Definition try_new (st : nat -> Frac) (d : nat) (m : res Frac) : res ((nat -> Frac) * event) :=
  match m with
  | Ok r => Ok (fupd st d r, Done)
  | Throw e => Ok (st, Caught e)
  | Abort => Abort
  | UB => UB
  | OutOfFuel => OutOfFuel
  end.
Definition try_in_place (st : nat -> Frac) (d : nat) (p : fst_res) : res ((nat -> Frac) * event) :=
  match snd p with
  | Ok _ => Ok (fupd st d (fst p), Done)
  | Throw e => Ok (fupd st d (fst p), Caught e)
  | Abort => Abort
  | UB => UB
  | OutOfFuel => OutOfFuel
  end.
Definition cexec (st : nat -> Frac) (s : stmt) : res ((nat -> Frac) * event) :=
  match s with
  | Do (HDefault d) => try_new st d Frac_default
  | Do (HOfInt d a) => try_new st d (Frac_of_Int a)
  | Do (HMake d a b) => try_new st d (Frac_make a b)
  | Do (HString d t) => try_new st d (Frac_of_string t)
  | Do (HCopy d a) => try_new st d (Ok (st a))
  | Do (HRecip d a) => try_new st d (reciprocal (st a))
  | Do (HBin o d a b) => try_new st d (Fbin o (st a) (st b))
  | Do (HIntL o d a b) => try_new st d (IFbin o a (st b))
  | Do (HIntR o d a b) => try_new st d (FIbin o (st a) b)
  | Do (HPow d a n) => try_new st d (F_pow (st a) n)
  | Do (HAssign o d b) => try_in_place st d (Fasg o (st d) (if Nat.eqb d b then None else Some (st b)))
  | Do (HIAssign o d b) => try_in_place st d (FIasg o (st d) b)
  | Do (HPowAssign d n) => try_in_place st d (F_pow_assign (st d) n)
  | Cmp c a b => r <- Fcmp c (st a) (st b) ;; Ok (st, Said r)
  end.
Fixpoint crun (st : nat -> Frac) (p : list stmt) : res ((nat -> Frac) * list event) :=
  match p with
  | [] => Ok (st, [])
  | s :: p' => a <- cexec st s ;; b <- crun (fst a) p' ;; Ok (fst b, snd a :: snd b)
  end.
