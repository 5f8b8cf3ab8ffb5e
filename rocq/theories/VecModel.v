(** Model of class template Vec: src/Vec.hpp. A Vec<T> is its std::vector<T>. *)
From Coq Require Import Ascii.
From Verif Require Import Base IntModel IOModel ElemModel.
Local Open Scope list_scope.

Section Vec.
Context {T : Type} (E : ops T).
Local Notation Vec := (list T).

(** Vec(size_t) -- src/Vec.hpp:22 *)
Definition Vec_size (n : nat) : Vec := repeat (of_int E 0) n.
(** Vec(const Vec<S>&), Vec(const vector<S>&), Vec(const S*, length) --
    src/Vec.hpp:79-97; [conv] is T(const S&). The pointer version reads
    vals[0..length). *)
Definition push_all {S} (conv : S -> res T) (l : list S) (n : nat) : res Vec :=
  final (for_ n 0 (fun i d => eval d (s <- get_at l i ;; conv s) (fun x => done (d ++ [x]))) []).
Definition Vec_of_vec {S} (conv : S -> res T) (l : list S) : res Vec := push_all conv l (length l).
Definition Vec_of_array {S} (conv : S -> res T) (vals : list S) (len : nat) : res Vec := push_all conv vals len.

(** setEntries -- src/Vec.hpp:99-112 *)
Definition setEntries_val {S} (conv : S -> res T) (v : Vec) (x : S) : outcome Vec :=
  eval v (conv x) (fun t => done (repeat t (length v))).
Definition setEntries_array {S} (conv : S -> res T) (v : Vec) (vals : list S) (size : nat) : outcome Vec :=
  if (size <? length v)%nat then (v, Throw InvalidArgument)
  else for_ (length v) 0 (fun i d => eval d (s <- get_at vals i ;; conv s) (fun x => done (replace d i x))) v.

(** x[i] op= y, the operand being an object other than x[i] *)
Definition assign_at (op : T -> option T -> res T) (x : Vec) (i : nat) (y : option T) : outcome Vec :=
  eval x (e <- get_at x i ;; op e y) (fun r => done (replace x i r)).

(** x += y, x -= y -- src/Vec.hpp:167-181. y is a const Vec&, whose operator[]
    returns a copy; [None] means y is x. *)
Definition vec_assign (op : T -> option T -> res T) (x : Vec) (y : option Vec) : outcome Vec :=
  if negb (length x =? length (rd x y))%nat then (x, Throw InvalidArgument)
  else for_ (length x) 0 (fun i d => eval d (get_at (rd d y) i) (fun e => assign_at op d i (Some e))) x.
Definition V_add_assign := vec_assign (addA E).
Definition V_sub_assign := vec_assign (subA E).

(** operator+ and operator- -- src/Vec.hpp:126-144 *)
Definition vec_binary (op : T -> option T -> res T) (x y : Vec) : res Vec :=
  if negb (length x =? length y)%nat then Throw InvalidArgument
  else final (for_ (length y) 0 (fun i r => eval r (get_at y i) (fun e => assign_at op r i (Some e))) x).
Definition V_add := vec_binary (addA E).
Definition V_sub := vec_binary (subA E).

(** A scalar operand: an object outside the vector, or its k-th element. *)
Inductive scalar := Val (a : T) | Elem (k : nat).
(** x *= a, x /= a -- src/Vec.hpp:183-193 *)
Definition scale_assign (op : T -> option T -> res T) (x : Vec) (a : scalar) : outcome Vec :=
  for_ (length x) 0 (fun i d =>
    match a with
    | Val v => assign_at op d i (Some v)
    | Elem k => if (i =? k)%nat then assign_at op d i None
                else eval d (get_at d k) (fun v => assign_at op d i (Some v))
    end) x.
Definition V_mul_assign := scale_assign (mulA E).
Definition V_div_assign := scale_assign (divA E).
(** a * x, x * a, x / a -- src/Vec.hpp:146-165. The result is a copy, so a is never
    one of its elements. *)
Definition V_scale (a : T) (x : Vec) : res Vec := final (V_mul_assign x (Val a)).
Definition V_mul (x : Vec) (a : T) : res Vec := V_scale a x.
Definition V_div (x : Vec) (a : T) : res Vec := final (V_div_assign x (Val a)).

(** operator== and != -- src/Vec.hpp:195-206. The loop stops at the first
    difference. *)
Fixpoint eq_loop (n i : nat) (x y : Vec) : res bool :=
  match n with
  | O => Ok true
  | S n' => a <- get_at x i ;; b <- get_at y i ;; e <- eqb E a b ;;
            if e : bool then eq_loop n' (S i) x y else Ok false
  end.
Definition V_eq (x y : Vec) : res bool :=
  if negb (length x =? length y)%nat then Ok false else eq_loop (length x) 0 x y.
Definition V_ne (x y : Vec) : res bool := e <- V_eq x y ;; Ok (negb e).

(** constantVec -- src/Vec.hpp:208-213 (T(val) is a copy) *)
Definition constantVec (n : nat) (v : T) : res Vec := final (setEntries_val Ok (Vec_size n) v).

(** dot -- src/Vec.hpp:247-255 *)
Definition dot (x y : Vec) : res T :=
  if negb (length x =? length y)%nat then Throw InvalidArgument
  else final (for_ (length x) 0 (fun i r =>
    eval r (a <- get_at x i ;; b <- get_at y i ;; p <- mul E a b ;; addA E r (Some p)) done) (of_int E 0)).

(** cross -- src/Vec.hpp:257-266. The operands of the two products are evaluated
    left to right here; the order is unspecified but does not matter to a result. *)
Definition minor (x y : Vec) (i j : nat) : res T :=
  a <- get_at x i ;; b <- get_at y j ;; p <- mul E a b ;;
  c <- get_at x j ;; d <- get_at y i ;; q <- mul E c d ;; sub E p q.
Definition cross (x y : Vec) : res Vec :=
  if negb ((length x =? 3) && (length y =? 3))%nat then Throw InvalidArgument
  else a <- minor x y 1 2 ;; b <- minor x y 2 0 ;; c <- minor x y 0 1 ;; Vec_of_array Ok [a; b; c] 3.

(** triple products -- src/Vec.hpp:215-223 *)
Definition scalar_triple_product (x y z : Vec) : res T := c <- cross y z ;; dot x c.
Definition vector_triple_product (x y z : Vec) : res Vec := c <- cross y z ;; cross x c.

(** concatenate -- src/Vec.hpp:268-276 *)
Definition concatenate (x y : Vec) : res Vec :=
  final (andthen (for_ (length x) 0 (fun i r => eval r (get_at x i) (fun e => done (replace r i e))) (Vec_size (length x + length y)))
        (for_ (length y) 0 (fun k r => eval r (get_at y k) (fun e => done (replace r (length x + k) e))))).

(** operator<< -- src/Vec.hpp:114-124; [pr] inserts an element. The state of the
    loop is the stream. *)
Definition V_print (pr : ostream -> T -> ostream) (o : ostream) (x : Vec) : res ostream :=
  let o := put o ["("%char] in
  p <- final (for_ (length x - 1) 0 (fun i o => eval o (get_at x i) (fun e => done (put (pr o e) [","%char; " "%char]))) o) ;;
  let i := (length x - 1)%nat in
  o <- (if (i <? length x)%nat then e <- get_at x i ;; Ok (pr p e) else Ok p) ;;
  Ok (put o [")"%char]).
(** norm and unit_vector: see DoubleModel.v. *)
End Vec.
Arguments Val {T} _.
Arguments Elem {T} _.
