(** The element type double, and what needs it: norm and unit_vector of Vec, and
    the insertion of a double into a stream. A double is a [spec_float] (IEEE
    binary64, round to nearest even, no extended precision; the sign and payload
    of a NaN are not represented). *)
From Coq Require Import Ascii String SpecFloat.
From Verif Require Import Base IntModel IOModel FracModel ElemModel VecModel CommonModel.
Local Open Scope Z_scope.
Local Open Scope list_scope.

(** *** Conversions *)
(** (double) k for an int k: exact below 2^53 *)
Definition double_of_int (k : Z) : spec_float := binary_normalize 53 1024 k 0 false.
(** (int) d: towards zero; undefined unless the result fits *)
Definition int_of_double (d : spec_float) : res Z :=
  match d with
  | S754_zero _ => Ok 0
  | S754_finite s m e =>
      let a := if 0 <=? e then Zpos m * 2 ^ e else Zpos m / 2 ^ (- e) in
      i32 (if s then - a else a)
  | _ => UB
  end.

(** *** T = double. Division by zero is defined; nothing throws. *)
Definition double_ops : ops spec_float := {|
  of_int := double_of_int; fresh := None;
  add := fun x y => Ok (SFadd 53 1024 x y); sub := fun x y => Ok (dsub x y); mul := fun x y => Ok (SFmul 53 1024 x y);
  div := fun x y => Ok (SFdiv 53 1024 x y); neg := fun x => Ok (SFopp x); eqb := fun x y => Ok (SFeqb x y);
  addA := fun x y => Ok (SFadd 53 1024 x (rd x y)); subA := fun x y => Ok (dsub x (rd x y));
  mulA := fun x y => Ok (SFmul 53 1024 x (rd x y)); divA := fun x y => Ok (SFdiv 53 1024 x (rd x y)) |}.

(** *** norm and unit_vector -- src/Vec.hpp:225-245 *)
(** norm<S>() of a Vec<T>: [todouble] is the cast of dot to double, [conv] the
    conversion of sqrt's result to S. norm() is the case S = T. *)
Definition norm {T S} (E : ops T) (todouble : T -> spec_float) (conv : spec_float -> res S) (x : list T) : res S :=
  d <- dot E x x ;; conv (SFsqrt 53 1024 (todouble d)).
(** unit_vector<S>(): [cast] is S(const T&), used to copy the vector. *)
Definition unit_vector {T S} (E : ops T) (ES : ops S) (todouble : T -> spec_float) (conv : spec_float -> res S) (cast : T -> res S)
  (x : list T) : res (list S) :=
  len <- norm E todouble conv x ;; v <- Vec_of_vec cast x ;; V_div ES v len.
(** The instances used in the repository *)
Definition norm_int : list Z -> res Z := norm int32_ops double_of_int int_of_double.
Definition norm_int_double : list Z -> res spec_float := norm int32_ops double_of_int Ok.
Definition norm_double : list spec_float -> res spec_float := norm double_ops (fun d => d) Ok.
Definition norm_double_int : list spec_float -> res Z := norm double_ops (fun d => d) int_of_double.
Definition unit_int : list Z -> res (list Z) := unit_vector int32_ops int32_ops double_of_int int_of_double Ok.
Definition unit_int_double : list Z -> res (list spec_float) :=
  unit_vector int32_ops double_ops double_of_int Ok (fun k => Ok (double_of_int k)).
Definition unit_double : list spec_float -> res (list spec_float) := unit_vector double_ops double_ops (fun d => d) Ok Ok.

(** *** out << d with the default format: printf's %.6g *)
(** m * 2^e * 10^p, rounded to the nearest integer *)
Definition scaled10 (m e p : Z) : Z :=
  round_half_even (m * 2 ^ (Z.max 0 e) * 10 ^ (Z.max 0 p)) (2 ^ (Z.max 0 (- e)) * 10 ^ (Z.max 0 (- p))).
(** the k-th power of ten, counting from k, that brings n / d up to 1 *)
Fixpoint first_place (fuel : nat) (k n d : Z) : Z :=
  match fuel with
  | O => k
  | S f => if d <=? n then k else first_place f (k + 1) (10 * n) d
  end.
(** the exponent of the leading digit of m * 2^e *)
Definition decade (m e : Z) : Z :=
  let n := m * 2 ^ (Z.max 0 e) in let d := 2 ^ (Z.max 0 (- e)) in
  if d <=? n then Z.of_nat (length (dec_nonneg (n / d))) - 1 else - first_place 400 0 n d.
Fixpoint drop_trailing (r : chars) : chars :=
  match r with c :: r' => if Ascii.eqb c ZERO then drop_trailing r' else r | [] => [] end.
Definition strip_zeros (s : chars) : chars := rev (drop_trailing (rev s)).
Definition with_point (s : chars) : chars := match strip_zeros s with [] => [] | f => DOT :: f end.
Definition exponent_text (x : Z) : chars :=
  "e"%char :: (if x <? 0 then MINUS else "+"%char) :: pad_zeros 2 (dec_nonneg (Z.abs x)).
Definition general_magnitude (m e : Z) : chars :=
  let x0 := decade m e in
  let n0 := scaled10 m e (5 - x0) in
  let '(n, x) := if n0 =? 1000000 then (100000, x0 + 1) else (n0, x0) in
  let s := dec_nonneg n in
  if (x <? -4) || (6 <=? x) then firstn 1 s ++ with_point (skipn 1 s) ++ exponent_text x
  else if 0 <=? x then firstn (Z.to_nat (x + 1)) s ++ with_point (skipn (Z.to_nat (x + 1)) s)
  else ZERO :: with_point (repeat ZERO (Z.to_nat (- x - 1)) ++ s).
Definition general_text (d : spec_float) : chars :=
  match d with
  | S754_zero s => (if s then [MINUS] else []) ++ [ZERO]
  | S754_infinity s => (if s then [MINUS] else []) ++ list_ascii_of_string "inf"
  | S754_nan => list_ascii_of_string "nan"
  | S754_finite s m e => (if s then [MINUS] else []) ++ general_magnitude (Zpos m) e
  end.
Definition double_print (o : ostream) (d : spec_float) : ostream := put o (general_text d).
(** out << k for an int *)
Definition int32_print (o : ostream) (k : Z) : ostream := put o (dec_int32 k).
