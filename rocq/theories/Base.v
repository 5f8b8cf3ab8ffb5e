(** Outcomes of running a piece of C++ and checked machine arithmetic. *)
From Coq Require Export ZArith List Bool Lia.
Export ListNotations.
Global Open Scope Z_scope.

(** Exceptions the library can raise.
    - [DivideByZero]    src/common.hpp:35-37   divide_by_zero_error
    - [InvalidArgument] std::invalid_argument
    - [DomainError]     std::domain_error
    - [OutOfRange]      std::out_of_range, raised by std::deque::at / std::string *)
Inductive exn := DivideByZero | InvalidArgument | DomainError | OutOfRange.

(** How control leaves a function: normal return, exception, failed assert
    (no NDEBUG in CMakeLists.txt), undefined behaviour, or a modelled loop that
    ran out of its explicit fuel. *)
Inductive res (A : Type) : Type :=
| Ok (a : A)
| Throw (e : exn)
| Abort
| UB
| OutOfFuel.
Arguments Ok {A} _.
Arguments Throw {A} _.
Arguments Abort {A}.
Arguments UB {A}.
Arguments OutOfFuel {A}.

Definition bind {A B} (m : res A) (f : A -> res B) : res B :=
  match m with
  | Ok a => f a
  | Throw e => Throw e
  | Abort => Abort
  | UB => UB
  | OutOfFuel => OutOfFuel
  end.

Notation "x <- m ;; f" := (bind m (fun x => f))
  (at level 61, m at next level, right associativity).
Notation "' pat <- m ;; f" := (bind m (fun x => match x with pat => f end))
  (at level 61, pat pattern, m at next level, right associativity).

Lemma bind_ok {A B} (a : A) (f : A -> res B) : bind (Ok a) f = f a.
Proof. reflexivity. Qed.

(** assert(b) of <cassert> *)
Definition assert_ (b : bool) : res unit := if b then Ok tt else Abort.

Definition INT32_MIN : Z := -2147483648.
Definition INT32_MAX : Z := 2147483647.
Definition INT64_MIN : Z := -9223372036854775808.
Definition INT64_MAX : Z := 9223372036854775807.

Definition in_int32 (z : Z) : bool := (INT32_MIN <=? z) && (z <=? INT32_MAX).
Definition in_int64 (z : Z) : bool := (INT64_MIN <=? z) && (z <=? INT64_MAX).

(** The result of a signed 32/64 bit arithmetic operation: overflow is UB. *)
Definition i32 (z : Z) : res Z := if in_int32 z then Ok z else UB.
Definition i64 (z : Z) : res Z := if in_int64 z then Ok z else UB.

(** abs(int) of <cstdlib>: undefined for INT_MIN. *)
Definition abs32 (z : Z) : res Z := if z <? 0 then i32 (- z) else Ok z.

(** Conversion int64_t -> int32_t (two's complement wrap, what gcc does). *)
Definition to_int32 (z : Z) : Z := (z + 2147483648) mod 4294967296 - 2147483648.

(** An outcome that is neither undefined behaviour nor an unfinished loop. *)
Definition defined {A} (m : res A) : Prop := m <> UB /\ m <> OutOfFuel.
