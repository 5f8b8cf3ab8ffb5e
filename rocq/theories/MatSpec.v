(** m is the r x c matrix whose (i, j) entry represents g i j. *)
From Verif Require Import Base IntModel ElemModel ElemSpec VecModel MatModel.
Local Open Scope nat_scope.

Definition mat_of {T A} (R : T -> A -> Prop) (m : Mat T) (r c : nat) (g : nat -> nat -> A) : Prop :=
  rows m = r /\ cols m = c /\ length (data m) = r * c /\
  forall i j, i < r -> j < c -> exists x, nth_error (data m) (i * c + j) = Some (Some x) /\ R x (g i j).
(** an r x c matrix, all of whose entries have been set *)
Definition filled {T} (m : Mat T) (r c : nat) : Prop := exists g, mat_of eq m r c g.
(** an r x c matrix, whatever its entries *)
Definition dims {T} (m : Mat T) (r c : nat) : Prop := rows m = r /\ cols m = c /\ length (data m) = r * c.

(** what operator<< writes: every entry followed by a space, lines separated by
    newlines (no newline at the end) *)
From Coq Require Import Ascii List.
Definition row_text (c : nat) (t : nat -> list ascii) : list ascii := flat_map (fun j => t j ++ [" "%char])%list (seq 0 c).
Fixpoint joined (l : list (list ascii)) : list ascii :=
  match l with
  | [] => []
  | [t] => t
  | t :: l' => (t ++ [ascii_of_nat 10] ++ joined l')%list
  end.
Definition mat_text (r c : nat) (t : nat -> nat -> list ascii) : list ascii := joined (map (fun i => row_text c (t i)) (seq 0 r)).
