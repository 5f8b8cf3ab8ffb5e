(** What should be left when memory runs out. *)
From Verif Require Import Base IntModel IOModel ElemModel MatModel HeapModel HeapSpec AllocModel.
Local Open Scope list_scope.

Definition same_shape {T} (v w : Mat T) : Prop := rows w = rows v /\ cols w = cols v /\ length (data w) = length (data v).
(** [kept X leaks s s']: nothing dangles or is shared; the objects of s are still there, with
    their values, but those in X may have got other entries; and no other object is there,
    or, if [leaks], at most one: that no variable names, whose array is lost. *)
Definition kept {T} (X : nat -> bool) (leaks : bool) (s s' : memory T) : Prop :=
  owned s' /\
  (forall y v, value s y = Some v -> exists w, value s' y = Some w /\ if X y then same_shape v w else w = v) /\
  exists z, forall y, value s y = None -> value s' y <> None -> leaks = true /\ y = z.
Definition none (y : nat) : bool := false.
Definition only (x y : nat) : bool := Nat.eqb y x.

(** A call ends as if memory were unlimited, or in std::bad_alloc with [kept]. *)
Definition guarantees {T A} (E : ops T) (el : bool) (X : nat -> bool) (leaks : bool) (s : memory T) (p : prog T A) : Prop :=
  forall fails junk n, match arun E el fails junk p s n with
  | (s', _, Fin m) => hrun E p s = (s', m)
  | (s', _, NoMem) => kept X leaks s s'
  end.
