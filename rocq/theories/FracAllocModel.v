(** Compound assignments of Frac when memory runs out: the object they leave behind if a
    request for memory fails with std::bad_alloc -- src/Frac.cpp:100-124, 146-223. They are
    made of assignments to the two members, each as in IntAllocModel.v, with the same
    requests and simplifications; what is computed in local objects counts as one request. *)
From Verif Require Import Base IntModel FracModel AllocModel IntAllocModel.
Local Open Scope list_scope.
Local Open Scope Z_scope.

Definition fstep (A : Type) : Type := Frac -> nat -> Frac * nat * ending A.
Reserved Notation "x <!! m ;; k" (at level 61, m at next level, right associativity).
Definition fnow {A B} (m : fstep A) (k : A -> fstep B) : fstep B := fun s n =>
  match m s n with
  | (s, n, Fin (Ok a)) => k a s n
  | (s, n, Fin m) => (s, n, Fin (_ <- m ;; UB))
  | (s, n, NoMem) => (s, n, NoMem)
  end.
Notation "x <!! m ;; k" := (fnow m (fun x => k)).
Definition fjust {A} (m : res A) : fstep A := fun s n => (s, n, Fin m).
Definition fhere : fstep Frac := fun s n => (s, n, Fin (Ok s)).
(** an operation on one of the two members *)
Definition on_top {A} (p : step A) : fstep A := fun f n => let '(z, n, e) := p (top f) n in (mkFrac z (bot f), n, e).
Definition on_bot {A} (p : step A) : fstep A := fun f n => let '(z, n, e) := p (bot f) n in (mkFrac (top f) z, n, e).

Section Runs.
Context (fails : nat -> bool) (half : list Z -> list Z -> list Z).
Definition fmay {A} (m : res A) : fstep A := fun s n => (s, S n, if fails n then NoMem else Fin m).

(** Frac::normalize -- src/Frac.cpp:146-157 *)
Definition normalize_m : fstep unit :=
  f <!! fhere ;;
  _ <!! (if is_negative (bot f) then _ <!! on_bot negate_m ;; on_top negate_m else fjust (Ok tt)) ;;
  f <!! fhere ;;
  c <!! fmay (GCD (top f) (bot f)) ;;
  _ <!! on_top (div_assign_m fails (Some c)) ;;
  on_bot (div_assign_m fails (Some c)).
(** Frac op= Frac -- src/Frac.cpp:159-182; [None]: the operand is the object itself *)
Definition Fm_addsub (op : Int -> Int -> res Int) (y : option Frac) : fstep unit :=
  x <!! fhere ;;
  t <!! fmay (a <- op_mul (top x) (bot (rd x y)) ;; b <- op_mul (top (rd x y)) (bot x) ;; op a b) ;;
  _ <!! on_top (assign_m fails half t) ;;
  _ <!! on_bot (mul_assign_m fails half (bot_of y)) ;;
  normalize_m.
Definition Fm_mul (y : option Frac) : fstep unit :=
  _ <!! on_top (mul_assign_m fails half (top_of y)) ;;
  _ <!! on_bot (mul_assign_m fails half (bot_of y)) ;;
  normalize_m.
Definition Fm_div (y : option Frac) : fstep unit :=
  x <!! fhere ;;
  tmp <!! fmay (Ok (top (rd x y))) ;;
  _ <!! on_top (mul_assign_m fails half (Some (bot (rd x y)))) ;;
  _ <!! on_bot (mul_assign_m fails half (Some tmp)) ;;
  normalize_m.
(** Frac op= Int -- src/Frac.cpp:193-223 *)
Definition FIm_addsub (p : option Int -> step unit) (a : Int) : fstep unit :=
  x <!! fhere ;;
  d <!! fmay (op_mul (bot x) a) ;;
  _ <!! on_top (p (Some d)) ;;
  normalize_m.
Definition FIm_mul (a : Int) : fstep unit := _ <!! on_top (mul_assign_m fails half (Some a)) ;; normalize_m.
Definition FIm_div (a : Int) : fstep unit := _ <!! on_bot (mul_assign_m fails half (Some a)) ;; normalize_m.
Definition Fm_pow (a : Int) : fstep unit :=
  e <!! (if is_negative a then fmay (op_neg a) else fjust (Ok a)) ;;
  _ <!! on_bot (pow_assign_m fails half (Some e)) ;;
  _ <!! on_top (pow_assign_m fails half (Some e)) ;;
  normalize_m.
End Runs.
