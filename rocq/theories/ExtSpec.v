(** The values a Frac can take once /= has divided by zero: rationals, 1/0, -1/0 and 0/0. *)
From Coq Require Import QArith.
From Verif Require Import Base IntModel IntSpec FracModel FracSpec.
Local Open Scope Z_scope.

Inductive ext := Fin (q : Q) | Inf (neg : bool).
Definition inf (neg : bool) : Frac := mkFrac (mkInt [1] neg) (mkInt [0] false).
Definition is_ext (f : Frac) (e : ext) : Prop :=
  match e with Fin q => reduced f /\ (Fval f == q)%Q | Inf n => f = inf n end.
(** 0/0 *)
Definition is_nan (f : Frac) : Prop := wf (top f) /\ wf (bot f) /\ val (top f) = 0 /\ val (bot f) = 0.

Definition neg_Q (q : Q) : bool := negb (Qle_bool 0 q).
Definition zero_Q (q : Q) : bool := Qeq_bool q 0.
(** The results; None where there is none. The sum of two infinities has none, even of the same sign. *)
Definition e_add (x y : ext) : option ext :=
  match x, y with
  | Fin p, Fin q => Some (Fin (p + q))
  | Inf n, Fin _ | Fin _, Inf n => Some (Inf n)
  | Inf _, Inf _ => None
  end.
Definition e_opp (x : ext) : ext := match x with Fin q => Fin (- q) | Inf n => Inf (negb n) end.
Definition e_mul (x y : ext) : option ext :=
  match x, y with
  | Fin p, Fin q => Some (Fin (p * q))
  | Inf n, Fin q | Fin q, Inf n => if zero_Q q then None else Some (Inf (xorb n (neg_Q q)))
  | Inf n, Inf m => Some (Inf (xorb n m))
  end.
Definition e_div (x y : ext) : option ext :=
  match x, y with
  | Fin p, Fin q => if zero_Q q then if zero_Q p then None else Some (Inf (neg_Q p)) else Some (Fin (p / q))
  | Inf n, Fin q => Some (Inf (xorb n (neg_Q q)))
  | Fin _, Inf _ => Some (Fin 0)
  | Inf _, Inf _ => None
  end.
(** An operation in place: the result, or the exception with 0/0 left behind, or an assertion. *)
Definition leaves_ext (p : Frac * res unit) (o : option ext) : Prop :=
  match snd p with
  | Ok _ => exists e, o = Some e /\ is_ext (fst p) e
  | Throw x => x = DivideByZero /\ o = None /\ is_nan (fst p)
  | Abort => True
  | UB | OutOfFuel => False
  end.
(** Numerator and denominator are at most m. *)
Definition within (m : Z) (f : Frac) : Prop := Z.abs (val (top f)) <= m /\ Z.abs (val (bot f)) <= m.
(** An operator that returns a new Frac: only rationals are returned. *)
Definition returns_ext (m : res Frac) (o : option ext) : Prop :=
  match m with
  | Ok f => exists q, o = Some (Fin q) /\ is_ext f (Fin q)
  | Throw x => x = DivideByZero /\ forall q, o <> Some (Fin q)
  | Abort => True
  | UB | OutOfFuel => False
  end.
(** Below and above every rational, but not below one another. *)
Definition e_lt (x y : ext) : Prop :=
  match x, y with
  | Fin p, Fin q => (p < q)%Q
  | Inf n, Fin _ => n = true
  | Fin _, Inf n => n = false
  | Inf _, Inf _ => False
  end.
Definition e_eq (x y : ext) : Prop :=
  match x, y with
  | Fin p, Fin q => (p == q)%Q
  | Inf n, Inf m => n = m
  | _, _ => False
  end.
