(** The arithmetic of Int again (IntModel.v; src/Int.cpp:130-256, 264-305, 323-415,
    420-463, 492-511, 543-673), counting the rounds of the loops written in src/Int.cpp
    and src/Int.hpp: every function returns what the function of IntModel.v returns
    (IntCost.v) and the number of rounds begun until then, also when it fails. The copy
    constructor is one of these loops (src/Int.cpp:302-305); it is counted where the
    source calls it and the call cannot be left out, except inside std::swap. What
    std::deque does to assign, resize or construct itself is not counted. *)
From Verif Require Import Base IntModel CostModel.
Local Open Scope list_scope.
Local Open Scope Z_scope.

Definition len (l : list Z) : Z := Z.of_nat (length l).
Definition lap {A} (m : counted A) : counted A := (fst m, 1 + snd m).

(** A loop over bins that ends at the first one that is not zero. *)
Fixpoint zero_run (l : list Z) : Z :=
  match l with
  | [] => 0
  | b :: l' => 1 + (if b =? 0 then zero_run l' else 0)
  end.

(** src/Int.cpp:302-305 *)
Definition shifted_c (x : Int) (s : nat) : counted Int := (Ok (Int_shifted x s), len (bins x)).
Definition copy_c (x : Int) : counted Int := (Ok x, len (bins x)).

(** src/Int.cpp:289-292 *)
Fixpoint push_c (fuel : nat) (x : Z) : counted (list Z) :=
  match fuel with
  | O => free OutOfFuel
  | S f =>
      if x >=? BIN_LIMIT
      then lap (rest <-- push_c f (Z.quot x BIN_LIMIT) ;;; free (Ok (to_int32 (Z.rem x BIN_LIMIT) :: rest)))
      else free (if x >? 0 then Ok [to_int32 x] else Ok [])
  end.
Definition of_int64_c (x : Z) (shift : nat) : counted Int :=
  if x <? 0 then
    nx <-- free (i64 (- x)) ;;; bs <-- push_c 4 nx ;;; free (Ok (mkInt (repeat 0 shift ++ bs) true))
  else if x =? 0 then free (set_value 0)
  else bs <-- push_c 4 x ;;; free (Ok (mkInt (repeat 0 shift ++ bs) false)).

(** src/Int.cpp:323-334; with no bins the first round throws *)
Definition equals_c (x : Int) (v : Z) : counted bool :=
  (equals_int32 x v, match bins x with [] => 1 | _ => zero_run (removelast (bins x)) end).
(** src/Int.hpp:57, src/Int.cpp:264-268 *)
Definition negate_c (x : Int) : counted Int :=
  z <-- equals_c x 0 ;;; free (Ok (mkInt (bins x) (if z then false else negb (negative x)))).
Definition op_neg_c (x : Int) : counted Int := r <-- copy_c x ;;; negate_c r.

(** src/Int.cpp:348-391 *)
Fixpoint cmp_rounds (a b : list Z) : Z :=
  match a, b with
  | x :: a', y :: b' => 1 + (if cmp_ints x y =? 0 then cmp_rounds a' b' else 0)
  | _, _ => 0
  end.
Definition cmp_bins_rounds (this x : Int) : Z :=
  let offset := (size x - size this)%nat in
  let xr := rev (bins x) in
  zero_run (firstn offset xr) +
  (if existsb (fun b => negb (b =? 0)) (firstn offset xr) then 0 else cmp_rounds (rev (bins this)) (skipn offset xr)).
Definition cmp_bins_c (this x : Int) : counted Z :=
  (Ok (cmp_bins this x), if (size x <? size this)%nat then cmp_bins_rounds x this else cmp_bins_rounds this x).
Definition clean_c (l : list Z) : counted (list Z) := (Ok (clean_list l), len l - len (clean_list l)).
Definition clean_bins_c (x : Int) : counted Int := l <-- clean_c (bins x) ;;; free (Ok (mkInt l (negative x))).
Definition cmp_c (this x : Int) : counted Z :=
  bin_cmp <-- cmp_bins_c this x ;;;
  z <-- (if bin_cmp =? 0 then equals_c this 0 else free (Ok false)) ;;;
  free (if z : bool then Ok 0
        else if negative this && negative x then Ok (- bin_cmp)
        else if negb (negative this) && negb (negative x) then Ok bin_cmp
        else if negative this then Ok (-1)
        else Ok 1).
Definition lt_c (x y : Int) : counted bool := c <-- cmp_c x y ;;; free (Ok (c <? 0)).
Definition gt_c (x y : Int) : counted bool := c <-- cmp_c x y ;;; free (Ok (c >? 0)).
Definition le_c (x y : Int) : counted bool := c <-- cmp_c x y ;;; free (Ok (c <=? 0)).
Definition ge_c (x y : Int) : counted bool := c <-- cmp_c x y ;;; free (Ok (c >=? 0)).
(** src/common.hpp:41-44 *)
Definition abs_c (a : Int) : counted Int :=
  z <-- of_int64_c 0 0 ;;; l <-- lt_c a z ;;; if l : bool then op_neg_c a else copy_c a.

(** src/Int.cpp:394-415 *)
Fixpoint add_carry_c (bs : list Z) (carry : Z) : counted (list Z) :=
  match bs with
  | [] => free (if carry =? 0 then Ok [] else Ok [carry])
  | b :: bs' =>
      if carry =? 0 then free (Ok bs)
      else lap (sum <-- free (i32 (b + carry)) ;;;
                rest <-- add_carry_c bs' (Z.max 0 (Z.quot sum BIN_LIMIT)) ;;;
                free (Ok (Z.rem sum BIN_LIMIT :: rest)))
  end.
Fixpoint add_loop_c (bs xs : list Z) (carry : Z) {struct xs} : counted (list Z) :=
  match xs with
  | [] => add_carry_c bs carry
  | x :: xs' =>
      lap (match bs with
           | [] => free (Throw OutOfRange)
           | b :: bs' =>
               t <-- free (i32 (b + x)) ;;;
               sum <-- free (i32 (t + carry)) ;;;
               rest <-- add_loop_c bs' xs' (Z.max 0 (Z.quot sum BIN_LIMIT)) ;;;
               free (Ok (Z.rem sum BIN_LIMIT :: rest))
           end)
  end.
Definition add_c (this x : Int) : counted Int :=
  let bs := if (size this <? size x)%nat then bins this ++ repeat 0 (size x - size this) else bins this in
  bs' <-- add_loop_c bs (bins x) 0 ;;; free (Ok (mkInt bs' (negative this))).

(** src/Int.cpp:420-463 *)
Fixpoint sub_borrow_c (bs : list Z) (borrow : Z) : counted (list Z) :=
  match bs with
  | [] => free (Ok [])
  | b :: bs' =>
      if borrow =? 0 then free (Ok bs)
      else lap (diff <-- free (i32 (b - borrow)) ;;;
                if diff <? 0
                then d <-- free (i32 (diff + BIN_LIMIT)) ;;; rest <-- sub_borrow_c bs' 1 ;;; free (Ok (d :: rest))
                else rest <-- sub_borrow_c bs' 0 ;;; free (Ok (diff :: rest)))
  end.
Fixpoint sub_loop_c (bs xs : list Z) (borrow : Z) {struct xs} : counted (list Z) :=
  match xs with
  | [] => sub_borrow_c bs borrow
  | x :: xs' =>
      lap (match bs with
           | [] => free (Throw OutOfRange)
           | b :: bs' =>
               t <-- free (i32 (b - borrow)) ;;;
               diff <-- free (i32 (t - x)) ;;;
               if diff <? 0
               then d <-- free (i32 (diff + BIN_LIMIT)) ;;; rest <-- sub_loop_c bs' xs' 1 ;;; free (Ok (d :: rest))
               else rest <-- sub_loop_c bs' xs' 0 ;;; free (Ok (diff :: rest))
           end)
  end.
Definition subtract_c (this x : Int) : counted Int :=
  _ <-- free (assert_top this) ;;;
  _ <-- free (assert_top x) ;;;
  a1 <-- abs_c this ;;;
  a2 <-- abs_c x ;;;
  ge <-- ge_c a1 a2 ;;;
  _ <-- free (assert_ ge) ;;;
  bs <-- sub_loop_c (bins this) (bins x) 0 ;;;
  l <-- clean_c bs ;;;
  free (Ok (mkInt l (negative this))).

(** src/Int.cpp:130-168 *)
Fixpoint addsub_c (fuel : nat) (is_sub : bool) (x y : Int) : counted Int :=
  match fuel with
  | O => free OutOfFuel
  | S f =>
      if is_sub then
        if negative x && negative y then
          nx <-- op_neg_c x ;;; ny <-- op_neg_c y ;;; r <-- addsub_c f true nx ny ;;; op_neg_c r
        else if negative x && negb (negative y) then
          nx <-- op_neg_c x ;;; r <-- addsub_c f false nx y ;;; op_neg_c r
        else if negb (negative x) && negative y then
          ny <-- op_neg_c y ;;; addsub_c f false x ny
        else
          gt <-- gt_c x y ;;;
          if gt : bool then r <-- copy_c x ;;; r <-- clean_bins_c r ;;; subtract_c r y
          else r <-- copy_c y ;;; r <-- clean_bins_c r ;;; r <-- subtract_c r x ;;; op_neg_c r
      else
        if negative x && negative y then
          nx <-- op_neg_c x ;;; ny <-- op_neg_c y ;;; r <-- addsub_c f false nx ny ;;; op_neg_c r
        else if negative x && negb (negative y) then
          nx <-- op_neg_c x ;;; r <-- addsub_c f true nx y ;;; op_neg_c r
        else if negb (negative x) && negative y then
          ny <-- op_neg_c y ;;; addsub_c f true x ny
        else if (size y <? size x)%nat then r <-- copy_c x ;;; add_c r y
        else r <-- copy_c y ;;; add_c r x
  end.
Definition op_add_c (x y : Int) : counted Int := addsub_c 3 false x y.
Definition op_sub_c (x y : Int) : counted Int := addsub_c 3 true x y.

(** src/Int.cpp:200-239 *)
Fixpoint addsub_assign_c (fuel : nat) (is_sub : bool) (this : Int) (other : option Int) : counted Int :=
  match fuel with
  | O => free OutOfFuel
  | S f =>
      let o := rd this other in
      if is_sub then
        if negative this && negative o then
          tmp <-- op_neg_c o ;;;
          this1 <-- negate_c this ;;;
          this2 <-- addsub_assign_c f true this1 (Some tmp) ;;;
          negate_c this2
        else if negative this && negb (negative o) then
          this1 <-- negate_c this ;;;
          this2 <-- addsub_assign_c f false this1 other ;;;
          negate_c this2
        else if negb (negative this) && negative o then
          no <-- op_neg_c o ;;; addsub_assign_c f false this (Some no)
        else
          gt <-- gt_c this o ;;;
          if gt : bool then subtract_c this o
          else r <-- copy_c o ;;; r <-- subtract_c r this ;;; negate_c r
      else
        if negative this && negative o then
          tmp <-- op_neg_c o ;;;
          this1 <-- negate_c this ;;;
          this2 <-- addsub_assign_c f false this1 (Some tmp) ;;;
          negate_c this2
        else if negative this && negb (negative o) then
          this1 <-- negate_c this ;;;
          this2 <-- addsub_assign_c f true this1 other ;;;
          negate_c this2
        else if negb (negative this) && negative o then
          no <-- op_neg_c o ;;; addsub_assign_c f true this (Some no)
        else c <-- copy_c o ;;; add_c this c
  end.
Definition add_assign_c (this : Int) (other : option Int) : counted Int := addsub_assign_c 3 false this other.
Definition sub_assign_c (this : Int) (other : option Int) : counted Int := addsub_assign_c 3 true this other.

(** src/Int.cpp:492-511, 170-180, 241-246 *)
Fixpoint mbi_loop_c (xs : list Z) (y : Z) (i : nat) (result : Int) : counted Int :=
  match xs with
  | [] => free (Ok result)
  | b :: xs' =>
      lap (prod <-- free (i64 (y * b)) ;;;
           t <-- of_int64_c prod i ;;;
           r <-- add_assign_c result (Some t) ;;;
           mbi_loop_c xs' y (S i) r)
  end.
Definition multiply_by_int_c (x : Int) (y : Z) : counted Int :=
  z <-- free (set_value 0) ;;; mbi_loop_c (bins x) y 0 z.
Fixpoint mul_loop_c (x : Int) (ys : list Z) (i : nat) (result : Int) : counted Int :=
  match ys with
  | [] => free (Ok result)
  | yb :: ys' =>
      lap (b <-- multiply_by_int_c x yb ;;;
           s <-- shifted_c b i ;;;
           r <-- add_assign_c result (Some s) ;;;
           mul_loop_c x ys' (S i) r)
  end.
Definition multiply_c (x y : Int) : counted Int :=
  z <-- free (set_value 0) ;;; mul_loop_c x (bins y) 0 z.
Definition op_mul_c (x y : Int) : counted Int :=
  r <-- (if (size y <? size x)%nat then multiply_c x y else multiply_c y x) ;;;
  if xorb (negative x) (negative y) then negate_c r else free (Ok r).
Definition mul_assign_c (this : Int) (other : option Int) : counted Int :=
  let o := rd this other in
  r <-- multiply_c this o ;;;
  free (Ok (mkInt (bins r) (xorb (negative this) (negative o)))).

(** src/Int.cpp:543-598 *)
Fixpoint iter_quotient_c (fuel : nat) (y x : Int) (b step : Z) : counted (Z * Int) :=
  match fuel with
  | O => free OutOfFuel
  | S f =>
      lap (b' <-- free (i32 (b + step)) ;;;
           prod <-- multiply_by_int_c x b' ;;;
           r <-- op_sub_c y prod ;;;
           go <-- (if negb (negative r) then c <-- cmp_bins_c x r ;;; free (Ok (c <=? 0)) else free (Ok false)) ;;;
           if go : bool then iter_quotient_c f y x b' step else free (Ok (b, r)))
  end.
Fixpoint qr_loop_c (fuel : nat) (y x : Int) (step q : Z) (r : Int) : counted (Z * Int) :=
  match fuel with
  | O => free OutOfFuel
  | S f =>
      if step >? 1 then
        lap (qr <-- iter_quotient_c ITER_FUEL y x q (Z.quot step 2) ;;;
             qr_loop_c f y x (Z.quot step 2) (fst qr) (snd qr))
      else free (Ok (q, r))
  end.
Definition quotient_and_remainder_c (y x r0 : Int) : counted (Z * Int) :=
  _ <-- free (assert_ (negb (is_negative x))) ;;;
  _ <-- free (assert_ (negb (is_negative y))) ;;;
  le <-- le_c x y ;;;
  lt <-- (if le : bool then
            bl <-- of_int64_c BIN_LIMIT 0 ;;; bx <-- op_mul_c bl x ;;; lt_c y bx
          else free (Ok false)) ;;;
  _ <-- free (assert_ (le && lt)) ;;;
  qr <-- qr_loop_c 32 y x BIN_LIMIT 0 r0 ;;;
  q <-- free (i32 (fst qr + 1)) ;;;
  free (Ok (q, snd qr)).

(** src/Int.cpp:603-643, 182-186, 248-250; shift(1) is one round *)
Fixpoint div_loop_c (k : nat) (x_norm : Int) (bs : list Z) (r current : Int) : counted (list Z) :=
  match k with
  | O => free (Ok bs)
  | S i =>
      lap (_ <-- free (assert_ (0 <? size current)%nat) ;;;
           _ <-- free (assert_ (i <? length bs)%nat) ;;;
           bi <-- free (at_ bs i) ;;;
           cb <-- free (set_nth (bins current) 0 bi) ;;;
           let cur := mkInt cb (negative current) in
           c <-- cmp_bins_c x_norm cur ;;;
           st <-- (if c <=? 0 then
                     qr <-- quotient_and_remainder_c cur x_norm r ;;;
                     _ <-- free (assert_ (negb (fst qr =? 0))) ;;;
                     bs' <-- free (set_nth bs i (fst qr)) ;;;
                     free (Ok (bs', snd qr, snd qr))
                   else
                     bs' <-- free (set_nth bs i 0) ;;;
                     l <-- clean_c bs' ;;;
                     free (Ok (l, r, cur))) ;;;
           let '(bs1, r1, cur1) := st in
           cur2 <-- lap (clean_bins_c (Int_shifted cur1 1)) ;;;
           div_loop_c i x_norm bs1 r1 cur2)
  end.
Definition divide_c (this x : Int) : counted Int :=
  z <-- equals_c x 0 ;;;
  if z : bool then free (Throw DivideByZero)
  else
    c <-- cmp_bins_c this x ;;;
    if c <? 0 then free (set_value 0)
    else
      x_norm <-- (if negative x then op_neg_c x else copy_c x) ;;;
      bs <-- div_loop_c (size this) x_norm (bins this) Int_default Int_default ;;;
      free (Ok (mkInt bs (xorb (negative this) (negative x)))).
Definition op_div_c (x y : Int) : counted Int := r <-- copy_c x ;;; divide_c r y.
Definition div_assign_c (this : Int) (other : option Int) : counted Int := o <-- copy_c (rd this other) ;;; divide_c this o.

(** src/Int.cpp:648-673, 188-192, 252-256 *)
Definition op_mod_c (x y : Int) : counted Int :=
  a <-- copy_c x ;;;
  b <-- copy_c y ;;;
  a <-- (if negative x then negate_c a else free (Ok a)) ;;;
  b <-- (if negative y then negate_c b else free (Ok b)) ;;;
  q <-- op_div_c a b ;;;
  qb <-- op_mul_c q b ;;;
  result <-- op_sub_c a qb ;;;
  z <-- equals_c result 0 ;;;
  if z : bool then free (Ok result)
  else if negative x && negative y then negate_c result
  else if negb (negative x) && negative y then add_assign_c result (Some y)
  else if negative x && negb (negative y) then op_sub_c y result
  else free (Ok result).
Definition mod_assign_c (this : Int) (other : option Int) : counted Int := op_mod_c this (rd this other).
