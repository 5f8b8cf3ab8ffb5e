(** What the memory stands for: objects as matrices, and who owns which array. *)
From Verif Require Import Base IntModel IOModel ElemModel MatModel HeapModel.
Local Open Scope list_scope.

(** the matrix an object holds; [None]: no live object, or one whose array is gone *)
Definition value {T} (s : memory T) (x : nat) : option (Mat T) :=
  match live (objs s) x with
  | Some o => match live (arrays s) (odata o) with Some a => Some (mkMat (orows o) (ocols o) a) | None => None end
  | None => None
  end.
(** Every live object has a live array, two objects have two arrays, and every live
    array belongs to an object: nothing dangles, is shared or is lost. *)
Definition owned {T} (s : memory T) : Prop :=
  (forall x o, live (objs s) x = Some o -> live (arrays s) (odata o) <> None) /\
  (forall x y o o', live (objs s) x = Some o -> live (objs s) y = Some o' -> odata o = odata o' -> x = y) /\
  (forall p a, live (arrays s) p = Some a -> exists x o, live (objs s) x = Some o /\ odata o = p).

Definition upd {A} (f : nat -> option A) (x : nat) (v : option A) : nat -> option A := fun k => if Nat.eqb k x then v else f k.
Definition count {A} (l : list (option A)) : nat := length (filter (fun o => match o with Some _ => true | None => false end) l).

(** Running p in s. A function that returns a Mat by value makes one new object with
    that value, and changes nothing else; if it throws, no object is left behind. *)
Definition returns {T} (E : ops T) (s : memory T) (p : prog T nat) (m : res (Mat T)) : Prop :=
  match m with
  | Ok v => exists s' x, hrun E p s = (s', Ok x) /\ owned s' /\ value s x = None /\ (forall y, value s' y = upd (value s) x (Some v) y)
  | Throw e => exists s', hrun E p s = (s', Throw e) /\ owned s' /\ (forall y, value s' y = value s y)
  | Abort => snd (hrun E p s) = Abort
  | UB => snd (hrun E p s) = UB
  | OutOfFuel => snd (hrun E p s) = OutOfFuel
  end.
(** one that returns something else and changes no object *)
Definition yields {T A} (E : ops T) (s : memory T) (p : prog T A) (m : res A) : Prop :=
  match m with
  | Abort | UB | OutOfFuel => snd (hrun E p s) = m
  | _ => exists s', hrun E p s = (s', m) /\ owned s' /\ (forall y, value s' y = value s y)
  end.
(** one that changes the object x, as o says, and no other *)
Definition changes {T} (E : ops T) (s : memory T) (x : nat) (p : prog T unit) (o : outcome (Mat T)) : Prop :=
  match snd o with
  | Abort | UB | OutOfFuel => snd (hrun E p s) = snd o
  | _ => exists s', hrun E p s = (s', snd o) /\ owned s' /\ (forall y, value s' y = upd (value s) x (Some (fst o)) y)
  end.
