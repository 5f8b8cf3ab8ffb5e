(** How much memory a call needs, in elements beyond those in use. *)
From Verif Require Import Base IntModel IOModel ElemModel MatModel HeapModel HeapSpec AllocModel AllocSpec SpaceModel.
Local Open Scope list_scope.
Local Open Scope nat_scope.

Definition ends_well {A} (m : res A) : Prop := match m with Ok _ | Throw _ => True | _ => False end.
(** room for k more elements is enough: the call ends as with unlimited memory *)
Definition suffices {T A} (E : ops T) (s : memory T) (p : prog T A) (k : nat) : Prop :=
  forall L, used s + k <= L -> lrun E L p s = (fst (hrun E p s), Fin (snd (hrun E p s))).
(** and with less it ends in std::bad_alloc, having changed nothing *)
Definition needs {T A} (E : ops T) (s : memory T) (p : prog T A) (k : nat) : Prop :=
  suffices E s p k /\
  forall L, used s <= L -> L < used s + k -> ends_well (snd (hrun E p s)) -> exists s', lrun E L p s = (s', NoMem) /\ kept none false s s'.
(** 2^2 + 3^2 + ... + (n-1)^2 *)
Definition squares (n : nat) : nat := list_sum (map (fun k => k * k) (seq 2 (n - 2))).
