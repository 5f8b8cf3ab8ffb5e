(** What a compound assignment of Frac may leave when memory runs out, member by member. *)
From Verif Require Import Base IntModel IntSpec FracModel AllocModel IntAllocModel IntAllocSpec FracAllocModel.
Local Open Scope list_scope.
Local Open Scope Z_scope.

(** [p] started on x ends as [F] says, or in std::bad_alloc, and then leaves z with [L z] *)
Definition fends (p : fstep unit) (F : Frac * res unit) (L : Frac -> Prop) (x : Frac) : Prop :=
  forall n, match p x n with
  | (z, _, Fin m) => m = snd F /\ match m with Ok _ | Throw _ => z = fst F | _ => True end
  | (z, _, NoMem) => L z
  end.
(** r has the value v; 0 may have a sign *)
Definition reads (v : Z) (r : Int) : Prop := wf r /\ val r = v /\ (v <> 0 -> canonical r).
(** while t/b is being reduced: with a positive denominator, before; or the numerator, or
    after it the denominator, partly divided by the greatest common divisor *)
Definition left_by_reduction (t b : Int) (z : Frac) : Prop :=
  exists t' b', ((t' = t /\ b' = b /\ negative b = false) \/ (negative b = true /\ bins t' = bins t /\ bins b' = bins b /\ val t' = - val t /\ val b' = - val b)) /\
  (z = mkFrac t' b' \/
   exists c, reads (Z.gcd (val t) (val b)) c /\ val c <> 0 /\
     (left_by_division t' c (top z) /\ bot z = b' \/
      is_the (Z.quot (val t') (val c)) (top z) /\ left_by_division b' c (bot z))).
(** numerator v, then denominator w, then reduction *)
Definition left_top_bot half (x : Frac) (v w : Z) (z : Frac) : Prop :=
  exists t b, reads v t /\ reads w b /\
  (left_by_result half (top x) t (top z) /\ bot z = bot x \/ top z = t /\ left_by_result half (bot x) b (bot z) \/ left_by_reduction t b z).
(** one member only *)
Definition left_top half (x : Frac) (v : Z) (z : Frac) : Prop :=
  exists t, reads v t /\ (left_by_result half (top x) t (top z) /\ bot z = bot x \/ left_by_reduction t (bot x) z).
Definition left_bot half (x : Frac) (w : Z) (z : Frac) : Prop :=
  exists b, reads w b /\ (left_by_result half (bot x) b (bot z) /\ top z = top x \/ left_by_reduction (top x) b z).
(** the numerator by += or -= of p *)
Definition left_top_sum half (adds : bool) (x : Frac) (p : Int) (v : Z) (z : Frac) : Prop :=
  left_by_sum half adds (top x) p (top z) /\ bot z = bot x \/ exists t, is_the v t /\ left_by_reduction t (bot x) z.
(** denominator, then numerator, both to the power e, whatever the code takes it to be *)
Definition left_pow half (x : Frac) (e : Int) (z : Frac) : Prop :=
  z = x \/ exists t b, op_pow (top x) e = Ok t /\ op_pow (bot x) e = Ok b /\
  (left_by_result half (bot x) b (bot z) /\ top z = top x \/ bot z = b /\ left_by_result half (top x) t (top z) \/ left_by_reduction t b z).
