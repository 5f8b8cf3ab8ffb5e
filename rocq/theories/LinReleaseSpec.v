(** What programs of Vec<Int> and Mat<Int> calls without assertions should do, over the integers. Of
    the model only the names of calls are used. *)
From Coq Require Import ZArith List.
From Verif Require Import Base LinSpec ReleaseCallsSpec.
Import ListNotations.
Local Open Scope Z_scope.

(** What an element x that is added to, reduced by or divided by y may be when the operator
    throws std::out_of_range (ReleaseCallsSpec.v); products never throw. *)
Inductive element_op := Sum (o : addsub) | Product | Quotient.
Definition partly (o : element_op) (x y u : Z) : Prop :=
  match o with
  | Sum Plus => x * y <= 0 /\ sum_left x y u
  | Sum Minus => 0 <= x * y /\ sum_left x y u
  | Product => False
  | Quotient => digits_left x y u
  end.
(** The elements before the k-th are as meant (w), the k-th is left unfinished (u), the rest are as
    they were (v). *)
Definition up_to (k : nat) (w : nat -> Z) (u : Z) (v : nat -> Z) (i : nat) : Z :=
  if Nat.ltb i k then w i else if Nat.eqb i k then u else v i.
(** ... of a matrix with c columns, row by row *)
Definition up_to_entry (c k : nat) (w : nat -> nat -> Z) (u : Z) (v : nat -> nat -> Z) (i j : nat) : Z :=
  if Nat.ltb (i * c + j) k then w i j else if Nat.eqb (i * c + j) k then u else v i j.
(** Element i of d is combined with y i by the compound assignment c; entry (i, j) with y i j. *)
Definition vec_operand (ms : values Z) (c : lcall) : option (nat * element_op * (nat -> Z)) :=
  match c with
  | VAssign o d b => Some (d, Sum o, snd (vector_of ms b))
  | VMulA d x => Some (d, Product, fun _ => scalar_of ms x)
  | VDivA d x => Some (d, Quotient, fun _ => scalar_of ms x)
  | VMulOwn d k => let a := snd (vector_of ms d) k in Some (d, Product, fun i => if Nat.leb i k then a else a * a)
  | VDivOwn d k => let a := snd (vector_of ms d) k in Some (d, Quotient, fun i => if Nat.leb i k then a else 1)
  | _ => None
  end.
Definition mat_operand (ms : values Z) (c : lcall) : option (nat * element_op * (nat -> nat -> Z)) :=
  let own d p q (b : Z) i j := let n := snd (fst (matrix_of ms d)) in if Nat.leb (i * n + j) (p * n + q) then snd (matrix_of ms d) p q else b in
  match c with
  | MAssign o d b => Some (d, Sum o, snd (matrix_of ms b))
  | MMulA d x => Some (d, Product, fun _ _ => scalar_of ms x)
  | MDivA d x => Some (d, Quotient, fun _ _ => scalar_of ms x)
  | MMulOwn d p q => let a := snd (matrix_of ms d) p q in Some (d, Product, own d p q (a * a))
  | MDivOwn d p q => Some (d, Quotient, own d p q 1)
  | _ => None
  end.
(** The calls that make a new value by adding, subtracting or dividing elements *)
Definition adds_or_divides (c : lcall) : Prop :=
  match c with
  | SAddSub _ _ _ _ | SDiv _ _ _ | VAddSub _ _ _ _ | VDiv _ _ _ | VDot _ _ _ | VCross _ _ _ | VSTP _ _ _ _ | VVTP _ _ _ _
  | MAddSub _ _ _ _ | MDiv _ _ _ | MProd _ _ _ | MProdA _ _ | MTrace _ _ | MRow _ _ | MCol _ _ => True
  | _ => False
  end.
(** Calls that neither add nor subtract nor divide elements *)
Definition safe (c : lcall) : Prop :=
  match c with
  | VAssign _ _ _ | VDivA _ _ | VDivOwn _ _ | MAssign _ _ _ | MDivA _ _ | MDivOwn _ _ _ => False
  | c => ~ adds_or_divides c
  end.
Section Does.
Context (G : algebra Z).
(** What a call that means e leaves when it throws std::out_of_range *)
Definition leaves_values (ms : values Z) (c : lcall) (e : effect Z) (ms' : values Z) : Prop :=
  match vec_operand ms c, mat_operand ms c with
  | Some (d, o, y), _ => exists n w k u, e = SetV d n w /\ (k < n)%nat /\ partly o (snd (vector_of ms d) k) (y k) u /\
      ms' = after (SetV d n (up_to k w u (snd (vector_of ms d)))) ms
  | _, Some (d, o, y) => exists r c w i j u, e = SetM d r c w /\ (i < r)%nat /\ (j < c)%nat /\ partly o (snd (matrix_of ms d) i j) (y i j) u /\
      ms' = after (SetM d r c (up_to_entry c (i * c + j) w u (snd (matrix_of ms d)))) ms
  | _, _ => adds_or_divides c /\ ms' = ms
  end.
Inductive call_gives (ms : values Z) (c : lcall) : option exn -> values Z -> Prop :=
| as_meant e : means G ms c e -> e <> Undefined -> call_gives ms c (thrown e) (after e ms)
| stuck e ms' : means G ms c e -> e <> Undefined -> leaves_values ms c e ms' -> call_gives ms c (Some OutOfRange) ms'.
Inductive gives : values Z -> list lcall -> values Z -> list (option exn) -> Prop :=
| gives_nil ms : gives ms [] ms []
| gives_cons ms c x ms1 p ms' l : call_gives ms c x ms1 -> gives ms1 p ms' l -> gives ms (c :: p) ms' (x :: l).
(** It comes to a call that the language does not define. *)
Inductive goes_astray : values Z -> list lcall -> Prop :=
| astray_here ms c p : means G ms c Undefined -> goes_astray ms (c :: p)
| astray_later ms c x ms1 p : call_gives ms c x ms1 -> goes_astray ms1 p -> goes_astray ms (c :: p).
End Does.
