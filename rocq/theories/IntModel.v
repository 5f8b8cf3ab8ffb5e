(** Model of class Int: src/Int.hpp and src/Int.cpp (arithmetic part).
    The stream part is in IOModel.v.

    Global simplifications:
    - a [std::deque<int32_t>] is a [list Z], least significant bin first;
    - sizes are unbounded [nat]s: the code narrows deque sizes to int32_t
      (Int.cpp:350, 618, Int.hpp:91-100), so the model is faithful for Ints of
      fewer than 2^31 bins; memory exhaustion (std::bad_alloc) is not modelled;
    - an in-place operation is a function returning the new value of *this; an
      operand that may be the same object as *this is an [option Int], where
      [None] means "the very same object" and is re-read at every use;
    - debug output (DEBUG_* = false in common.hpp:7-10) is omitted. *)
From Verif Require Import Base.

(** src/Int.hpp:35-36 *)
Definition BIN_WIDTH : Z := 9.
Definition BIN_LIMIT : Z := 1000000000.

(** src/Int.hpp:81-82 *)
Record Int := mkInt { bins : list Z; negative : bool }.

Definition size (x : Int) : nat := length (bins x).

(** Int::Int() -- src/Int.cpp:273-274 *)
Definition Int_default : Int := mkInt [0] false.

(** Int::set_value -- src/Int.cpp:337-341 *)
Definition set_value (v : Z) : res Int :=
  a <- abs32 v ;; Ok (mkInt [a] (v <? 0)).

(** The loop of Int::Int(int64_t,size_t) -- src/Int.cpp:289-294.
    At most three rounds are possible for an int64_t; fuel is 4. *)
Fixpoint push_bins (fuel : nat) (x : Z) : res (list Z) :=
  match fuel with
  | O => OutOfFuel
  | S f =>
      if x >=? BIN_LIMIT
      then rest <- push_bins f (Z.quot x BIN_LIMIT) ;;
           Ok (to_int32 (Z.rem x BIN_LIMIT) :: rest)
      else if x >? 0 then Ok [to_int32 x] else Ok []
  end.

(** Int::Int(int64_t x, size_t shift) -- src/Int.cpp:281-295.
    [-x] overflows for INT64_MIN. For x = 0 the shift zeroes are dropped. *)
Definition Int_of_int64 (x : Z) (shift : nat) : res Int :=
  if x <? 0 then
    nx <- i64 (- x) ;; bs <- push_bins 4 nx ;; Ok (mkInt (repeat 0 shift ++ bs) true)
  else if x =? 0 then set_value 0
  else bs <- push_bins 4 x ;; Ok (mkInt (repeat 0 shift ++ bs) false).

(** Int::Int(const Int& x, size_t shift) -- src/Int.cpp:302-305.
    With shift = 0 this is the copy constructor (identity in the model). *)
Definition Int_shifted (x : Int) (shift : nat) : Int :=
  mkInt (repeat 0 shift ++ bins x) (negative x).

(** Int::equals_int32 -- src/Int.cpp:323-334.
    All bins but the last must be zero, then the LAST bin is compared with |v|.
    On an empty deque [bins.size() - 1] wraps and bins.at(0) throws. *)
Definition equals_int32 (x : Int) (v : Z) : res bool :=
  val <- abs32 v ;;
  match bins x with
  | [] => Throw OutOfRange
  | _ =>
      if forallb (fun b => b =? 0) (removelast (bins x)) then
        let top := last (bins x) 0 in
        if (top =? val) && Bool.eqb (negative x) (v <? 0) then Ok true
        else if (top =? val) && (val =? 0) then Ok true
        else Ok false
      else Ok false
  end.

(** Int::negate -- src/Int.hpp:57 *)
Definition negate (x : Int) : res Int :=
  z <- equals_int32 x 0 ;; Ok (mkInt (bins x) (if z then false else negb (negative x))).

(** unary operator- -- src/Int.cpp:264-268 *)
Definition op_neg (x : Int) : res Int := negate x.

(** Int::is_odd, Int::is_negative -- src/Int.hpp:55-56 *)
Definition is_odd (x : Int) : res bool :=
  match bins x with
  | [] => Throw OutOfRange
  | b :: _ => Ok (Z.rem b 2 =? 1)
  end.
Definition is_negative (x : Int) : bool := negative x.

(** cmp_ints -- src/common.hpp:54-56 *)
Definition cmp_ints (x y : Z) : Z := if x <? y then -1 else if x >? y then 1 else 0.

(** The comparison loop of Int::cmp_bins -- src/Int.cpp:358-361, on bins
    listed most significant first. *)
Fixpoint cmp_loop (a b : list Z) : Z :=
  match a, b with
  | x :: a', y :: b' => let t := cmp_ints x y in if t =? 0 then cmp_loop a' b' else t
  | _, _ => 0
  end.

(** Int::cmp_bins when x has at least as many bins as *this -- src/Int.cpp:353-361.
    The first [offset] bins from the back of x must be zero. *)
Definition cmp_bins_le (this x : Int) : Z :=
  let offset := (size x - size this)%nat in
  let xr := rev (bins x) in
  if existsb (fun b => negb (b =? 0)) (firstn offset xr) then -1
  else cmp_loop (rev (bins this)) (skipn offset xr).

(** Int::cmp_bins -- src/Int.cpp:348-362 *)
Definition cmp_bins (this x : Int) : Z :=
  if (size x <? size this)%nat then - cmp_bins_le x this else cmp_bins_le this x.

(** Int::cleanBins -- src/Int.cpp:364-370. [drop_zeros] works on the bins
    listed most significant first: pop while more than one bin and it is 0. *)
Fixpoint drop_zeros (r : list Z) : list Z :=
  match r with
  | b :: ((_ :: _) as r') => if b =? 0 then drop_zeros r' else r
  | _ => r
  end.
Definition clean_list (l : list Z) : list Z := rev (drop_zeros (rev l)).
Definition clean_bins (x : Int) : Int := mkInt (clean_list (bins x)) (negative x).

(** Int::cmp -- src/Int.cpp:377-391 *)
Definition cmp (this x : Int) : res Z :=
  let bin_cmp := cmp_bins this x in
  z <- (if bin_cmp =? 0 then equals_int32 this 0 else Ok false) ;;
  if z : bool then Ok 0
  else if negative this && negative x then Ok (- bin_cmp)
  else if negb (negative this) && negb (negative x) then Ok bin_cmp
  else if negative this then Ok (-1)
  else Ok 1.

(** Relational operators -- src/Int.hpp:74-79 *)
Definition op_lt (x y : Int) : res bool := c <- cmp x y ;; Ok (c <? 0).
Definition op_gt (x y : Int) : res bool := c <- cmp x y ;; Ok (c >? 0).
Definition op_le (x y : Int) : res bool := c <- cmp x y ;; Ok (c <=? 0).
Definition op_ge (x y : Int) : res bool := c <- cmp x y ;; Ok (c >=? 0).
Definition op_ne (x y : Int) : res bool := c <- cmp x y ;; Ok (negb (c =? 0)).
Definition op_eq (x y : Int) : res bool := c <- cmp x y ;; Ok (c =? 0).

(** abs<Int> -- src/common.hpp:41-44; the literal 0 converts through Int(int64_t) *)
Definition abs_Int (a : Int) : res Int :=
  z <- Int_of_int64 0 0 ;; l <- op_lt a z ;; if l : bool then op_neg a else Ok a.

(** Int::add, second loop and final push -- src/Int.cpp:406-414 *)
Fixpoint add_carry (bs : list Z) (carry : Z) : res (list Z) :=
  match bs with
  | [] => if carry =? 0 then Ok [] else Ok [carry]
  | b :: bs' =>
      if carry =? 0 then Ok bs
      else sum <- i32 (b + carry) ;;
           rest <- add_carry bs' (Z.max 0 (Z.quot sum BIN_LIMIT)) ;;
           Ok (Z.rem sum BIN_LIMIT :: rest)
  end.

(** Int::add, first loop -- src/Int.cpp:400-405 *)
Fixpoint add_loop (bs xs : list Z) (carry : Z) {struct xs} : res (list Z) :=
  match xs with
  | [] => add_carry bs carry
  | x :: xs' =>
      match bs with
      | [] => Throw OutOfRange
      | b :: bs' =>
          t <- i32 (b + x) ;;
          sum <- i32 (t + carry) ;;
          rest <- add_loop bs' xs' (Z.max 0 (Z.quot sum BIN_LIMIT)) ;;
          Ok (Z.rem sum BIN_LIMIT :: rest)
      end
  end.

(** Int::add -- src/Int.cpp:394-415 *)
Definition add_ (this x : Int) : res Int :=
  let bs := if (size this <? size x)%nat
            then bins this ++ repeat 0 (size x - size this)   (* resize *)
            else bins this in
  bs' <- add_loop bs (bins x) 0 ;; Ok (mkInt bs' (negative this)).

(** Int::subtract, second loop -- src/Int.cpp:451-461 *)
Fixpoint sub_borrow (bs : list Z) (borrow : Z) : res (list Z) :=
  match bs with
  | [] => Ok []
  | b :: bs' =>
      if borrow =? 0 then Ok bs
      else diff <- i32 (b - borrow) ;;
           if diff <? 0
           then d <- i32 (diff + BIN_LIMIT) ;; rest <- sub_borrow bs' 1 ;; Ok (d :: rest)
           else rest <- sub_borrow bs' 0 ;; Ok (diff :: rest)
  end.

(** Int::subtract, first loop -- src/Int.cpp:435-450 *)
Fixpoint sub_loop (bs xs : list Z) (borrow : Z) {struct xs} : res (list Z) :=
  match xs with
  | [] => sub_borrow bs borrow
  | x :: xs' =>
      match bs with
      | [] => Throw OutOfRange
      | b :: bs' =>
          t <- i32 (b - borrow) ;;
          diff <- i32 (t - x) ;;
          if diff <? 0
          then d <- i32 (diff + BIN_LIMIT) ;; rest <- sub_loop bs' xs' 1 ;; Ok (d :: rest)
          else rest <- sub_loop bs' xs' 0 ;; Ok (diff :: rest)
      end
  end.

(** The assertion on redundant bins -- src/Int.cpp:432-433 *)
Definition assert_top (x : Int) : res unit :=
  if (1 <? size x)%nat then assert_ (negb (last (bins x) 0 =? 0)) else Ok tt.

(** Int::subtract -- src/Int.cpp:420-463 *)
Definition subtract (this x : Int) : res Int :=
  _ <- assert_top this ;;
  _ <- assert_top x ;;
  a1 <- abs_Int this ;;
  a2 <- abs_Int x ;;
  ge <- op_ge a1 a2 ;;
  _ <- assert_ ge ;;
  bs <- sub_loop (bins this) (bins x) 0 ;;
  Ok (mkInt (clean_list bs) (negative this)).

(** operator+ and operator- -- src/Int.cpp:130-168.
    The two call each other after making operands non-negative; [fuel] bounds
    that mutual recursion ([is_sub] selects operator-). *)
Fixpoint addsub (fuel : nat) (is_sub : bool) (x y : Int) : res Int :=
  match fuel with
  | O => OutOfFuel
  | S f =>
      if is_sub then
        if negative x && negative y then
          nx <- op_neg x ;; ny <- op_neg y ;; r <- addsub f true nx ny ;; op_neg r
        else if negative x && negb (negative y) then
          nx <- op_neg x ;; r <- addsub f false nx y ;; op_neg r
        else if negb (negative x) && negative y then
          ny <- op_neg y ;; addsub f false x ny
        else
          gt <- op_gt x y ;;
          if gt : bool then subtract (clean_bins x) y
          else r <- subtract (clean_bins y) x ;; op_neg r
      else
        if negative x && negative y then
          nx <- op_neg x ;; ny <- op_neg y ;; r <- addsub f false nx ny ;; op_neg r
        else if negative x && negb (negative y) then
          nx <- op_neg x ;; r <- addsub f true nx y ;; op_neg r
        else if negb (negative x) && negative y then
          ny <- op_neg y ;; addsub f true x ny
        else if (size y <? size x)%nat then add_ x y
        else add_ y x
  end.
Definition op_add (x y : Int) : res Int := addsub 3 false x y.
Definition op_sub (x y : Int) : res Int := addsub 3 true x y.

(** The value an aliased or separate operand has now. *)
Definition rd {A} (this : A) (other : option A) : A :=
  match other with None => this | Some v => v end.

(** Int::operator+= and Int::operator-= -- src/Int.cpp:200-239 *)
Fixpoint addsub_assign (fuel : nat) (is_sub : bool) (this : Int) (other : option Int) : res Int :=
  match fuel with
  | O => OutOfFuel
  | S f =>
      let o := rd this other in
      if is_sub then
        if negative this && negative o then
          tmp <- op_neg o ;;
          this1 <- negate this ;;
          this2 <- addsub_assign f true this1 (Some tmp) ;;
          negate this2
        else if negative this && negb (negative o) then
          this1 <- negate this ;;
          this2 <- addsub_assign f false this1 other ;;
          negate this2
        else if negb (negative this) && negative o then
          no <- op_neg o ;; addsub_assign f false this (Some no)
        else
          gt <- op_gt this o ;;
          if gt : bool then subtract this o
          else r <- subtract o this ;; negate r
      else
        if negative this && negative o then
          tmp <- op_neg o ;;
          this1 <- negate this ;;
          this2 <- addsub_assign f false this1 (Some tmp) ;;
          negate this2
        else if negative this && negb (negative o) then
          this1 <- negate this ;;
          this2 <- addsub_assign f true this1 other ;;
          negate this2
        else if negb (negative this) && negative o then
          no <- op_neg o ;; addsub_assign f true this (Some no)
        else add_ this o
  end.
Definition add_assign (this : Int) (other : option Int) : res Int := addsub_assign 3 false this other.
Definition sub_assign (this : Int) (other : option Int) : res Int := addsub_assign 3 true this other.

(** multiply_by_int -- src/Int.cpp:492-499; [i] is the loop index *)
Fixpoint mbi_loop (xs : list Z) (y : Z) (i : nat) (result : Int) : res Int :=
  match xs with
  | [] => Ok result
  | b :: xs' =>
      prod <- i64 (y * b) ;;
      t <- Int_of_int64 prod i ;;
      r <- add_assign result (Some t) ;;
      mbi_loop xs' y (S i) r
  end.
Definition multiply_by_int (x : Int) (y : Z) : res Int :=
  z <- set_value 0 ;; mbi_loop (bins x) y 0 z.

(** multiply -- src/Int.cpp:504-511 *)
Fixpoint mul_loop (x : Int) (ys : list Z) (i : nat) (result : Int) : res Int :=
  match ys with
  | [] => Ok result
  | yb :: ys' =>
      b <- multiply_by_int x yb ;;
      r <- add_assign result (Some (Int_shifted b i)) ;;
      mul_loop x ys' (S i) r
  end.
Definition multiply (x y : Int) : res Int :=
  z <- set_value 0 ;; mul_loop x (bins y) 0 z.

(** operator* -- src/Int.cpp:170-180 *)
Definition op_mul (x y : Int) : res Int :=
  r <- (if (size y <? size x)%nat then multiply x y else multiply y x) ;;
  if xorb (negative x) (negative y) then negate r else Ok r.

(** Int::operator*= -- src/Int.cpp:241-246: the sign is stored unconditionally *)
Definition mul_assign (this : Int) (other : option Int) : res Int :=
  let o := rd this other in
  r <- multiply this o ;;
  Ok (mkInt (bins r) (xorb (negative this) (negative o))).

(** divide_by_int -- src/Int.cpp:516-530, bins most significant first.
    [acc] is result.bins while being filled by push_front. *)
Fixpoint dbi_loop (xs : list Z) (y r : Z) (acc : list Z) : res (list Z) :=
  match xs with
  | [] => Ok acc
  | b :: xs' =>
      m <- i64 (r * BIN_LIMIT) ;;
      d <- i64 (m + b) ;;
      q <- i64 (Z.quot d y) ;;
      dbi_loop xs' y (Z.rem d y) (to_int32 q :: acc)
  end.
(** [rneg]: the sign flag the result object had before the call (kept). *)
Definition divide_by_int (x : Int) (y : Z) (rneg : bool) : res Int :=
  if y =? 0 then Throw DivideByZero
  else bs <- dbi_loop (rev (bins x)) y 0 [] ;;
       Ok (mkInt (match bs with [] => [0] | _ => bs end) rneg).

(** iter_quotient -- src/Int.cpp:543-561: the do-while loop, starting with b = q.
    Returns the final q and r. *)
Fixpoint iter_quotient (fuel : nat) (y x : Int) (b step : Z) : res (Z * Int) :=
  match fuel with
  | O => OutOfFuel
  | S f =>
      b' <- i32 (b + step) ;;
      prod <- multiply_by_int x b' ;;
      r <- op_sub y prod ;;
      if negb (negative r) && (cmp_bins x r <=? 0)
      then iter_quotient f y x b' step
      else Ok (b, r)
  end.
Definition ITER_FUEL : nat := 8.

(** The while loop of quotient_and_remainder -- src/Int.cpp:591-596 *)
Fixpoint qr_loop (fuel : nat) (y x : Int) (step q : Z) (r : Int) : res (Z * Int) :=
  match fuel with
  | O => OutOfFuel
  | S f =>
      if step >? 1 then
        let step' := Z.quot step 2 in
        qr <- iter_quotient ITER_FUEL y x q step' ;;
        qr_loop f y x step' (fst qr) (snd qr)
      else Ok (q, r)
  end.

(** quotient_and_remainder -- src/Int.cpp:583-598; [r0] is r on entry *)
Definition quotient_and_remainder (y x r0 : Int) : res (Z * Int) :=
  _ <- assert_ (negb (is_negative x)) ;;
  _ <- assert_ (negb (is_negative y)) ;;
  le <- op_le x y ;;
  lt <- (if le : bool then
           bl <- Int_of_int64 BIN_LIMIT 0 ;; bx <- op_mul bl x ;; op_lt y bx
         else Ok false) ;;
  _ <- assert_ (le && lt) ;;
  qr <- qr_loop 32 y x BIN_LIMIT 0 r0 ;;
  q <- i32 (fst qr + 1) ;;
  Ok (q, snd qr).

(** bins.at(i) = v *)
Fixpoint set_nth (l : list Z) (i : nat) (v : Z) : res (list Z) :=
  match l, i with
  | [], _ => Throw OutOfRange
  | _ :: l', O => Ok (v :: l')
  | b :: l', S i' => r <- set_nth l' i' v ;; Ok (b :: r)
  end.
(** bins.at(i) *)
Definition at_ (l : list Z) (i : nat) : res Z :=
  match nth_error l i with Some v => Ok v | None => Throw OutOfRange end.

(** The loop of Int::divide -- src/Int.cpp:618-641. [k] is i + 1. *)
Fixpoint div_loop (k : nat) (x_norm : Int) (bs : list Z) (r current : Int) : res (list Z) :=
  match k with
  | O => Ok bs
  | S i =>
      _ <- assert_ (0 <? size current)%nat ;;
      _ <- assert_ (i <? length bs)%nat ;;
      bi <- at_ bs i ;;
      cb <- set_nth (bins current) 0 bi ;;
      let cur := mkInt cb (negative current) in
      st <- (if cmp_bins x_norm cur <=? 0 then
               qr <- quotient_and_remainder cur x_norm r ;;
               _ <- assert_ (negb (fst qr =? 0)) ;;
               bs' <- set_nth bs i (fst qr) ;;
               Ok (bs', snd qr, snd qr)
             else
               bs' <- set_nth bs i 0 ;;
               Ok (clean_list bs', r, cur)) ;;
      let '(bs1, r1, cur1) := st in
      let cur2 := clean_bins (Int_shifted cur1 1) in   (* current.shift(1); current.cleanBins() *)
      div_loop i x_norm bs1 r1 cur2
  end.

(** Int::divide -- src/Int.cpp:603-643 *)
Definition divide (this x : Int) : res Int :=
  z <- equals_int32 x 0 ;;
  if z : bool then Throw DivideByZero
  else if cmp_bins this x <? 0 then set_value 0
  else
    x_norm <- (if negative x then op_neg x else Ok x) ;;
    bs <- div_loop (size this) x_norm (bins this) Int_default Int_default ;;
    Ok (mkInt bs (xorb (negative this) (negative x))).

(** operator/ and operator/= -- src/Int.cpp:182-186, 248-250 *)
Definition op_div (x y : Int) : res Int := divide x y.
Definition div_assign (this : Int) (other : option Int) : res Int := divide this (rd this other).

(** modulo -- src/Int.cpp:648-673; operator%, operator%= -- 188-192, 252-256 *)
Definition modulo (x y : Int) : res Int :=
  a <- (if negative x then negate x else Ok x) ;;
  b <- (if negative y then negate y else Ok y) ;;
  q <- op_div a b ;;
  qb <- op_mul q b ;;
  result <- op_sub a qb ;;
  z <- equals_int32 result 0 ;;
  if z : bool then Ok result
  else if negative x && negative y then negate result
  else if negb (negative x) && negative y then add_assign result (Some y)
  else if negative x && negb (negative y) then op_sub y result
  else Ok result.
Definition op_mod (x y : Int) : res Int := modulo x y.
Definition mod_assign (this : Int) (other : option Int) : res Int := modulo this (rd this other).

(** exponentiate -- src/Int.cpp:684-699; [fuel] bounds the recursion depth.
    half_y is a fresh Int, so its sign flag is false. *)
Fixpoint exponentiate (fuel : nat) (x y : Int) : res Int :=
  match fuel with
  | O => OutOfFuel
  | S f =>
      y0 <- equals_int32 y 0 ;;
      if y0 : bool then set_value 1
      else
        y1 <- equals_int32 y 1 ;;
        if y1 : bool then Ok x
        else
          odd <- is_odd y ;;
          if odd : bool then
            one <- Int_of_int64 1 0 ;;
            ym1 <- op_sub y one ;;
            a <- exponentiate f x ym1 ;;
            op_mul x a
          else
            half_y <- divide_by_int y 2 false ;;
            r <- exponentiate f x half_y ;;
            op_mul r r
  end.
(** Recursion depth allowed: two calls per binary digit of the exponent. *)
Definition exp_fuel (y : Int) : nat := (64 * size y + 64)%nat.

(** operator^ and operator^= -- src/Int.cpp:194-198, 258-262 *)
Definition op_pow (x y : Int) : res Int := exponentiate (exp_fuel y) x y.
Definition pow_assign (this : Int) (other : option Int) : res Int := op_pow this (rd this other).

(** n rounds of [*this op= 10] -- src/Int.cpp:468-469 and 483-484 *)
Fixpoint iter_mul10 (n : nat) (x : Int) : res Int :=
  match n with
  | O => Ok x
  | S n' => ten <- Int_of_int64 10 0 ;; r <- mul_assign x (Some ten) ;; iter_mul10 n' r
  end.
Fixpoint iter_div10 (n : nat) (x : Int) : res Int :=
  match n with
  | O => Ok x
  | S n' => ten <- Int_of_int64 10 0 ;; r <- div_assign x (Some ten) ;; iter_div10 n' r
  end.

(** Int::times_power_ten -- src/Int.cpp:465-487. The while loops that push or
    pop one bin per 9 powers run [pow / 9] times (or until no bin is left). *)
Definition times_power_ten (this : Int) (power : Z) : res Int :=
  if power >? 0 then
    t <- iter_mul10 (Z.to_nat (Z.rem power BIN_WIDTH)) this ;;
    Ok (mkInt (repeat 0 (Z.to_nat (Z.quot power BIN_WIDTH)) ++ bins t) (negative t))
  else if power <? 0 then
    pow <- i32 (- power) ;;
    let bs := skipn (Z.to_nat (Z.quot pow BIN_WIDTH)) (bins this) in
    match bs with
    | [] => set_value 0
    | _ => iter_div10 (Z.to_nat (Z.rem pow BIN_WIDTH)) (mkInt bs (negative this))
    end
  else Ok this.

(** The object an in-place operation leaves behind, together with how it ended.
    Justification for keeping [this] on an exception: divide throws before its
    first write (src/Int.cpp:604-605), and operator*=, %=, ^= compute into a
    local [r] and swap at the very end (241-262). *)
Definition in_place (this : Int) (m : res Int) : Int * res unit :=
  match m with
  | Ok r => (r, Ok tt)
  | Throw e => (this, Throw e)
  | Abort => (this, Abort)
  | UB => (this, UB)
  | OutOfFuel => (this, OutOfFuel)
  end.
Definition div_assign_st (this : Int) (other : option Int) : Int * res unit :=
  in_place this (div_assign this other).
Definition mod_assign_st (this : Int) (other : option Int) : Int * res unit :=
  in_place this (mod_assign this other).
