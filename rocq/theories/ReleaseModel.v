(** The arithmetic of Int when assertions are compiled out. CMakeLists.txt sets no build
    type, so assertions are on by default (IntModel.v); configured with
    CMAKE_BUILD_TYPE=Release, CMake compiles with -DNDEBUG and every assert of
    src/Int.cpp:432-434, 587-589, 624-625, 631 disappears. The functions below are those
    of IntModel.v that contain an assertion or call one that does, without the
    assertions; the others are the same in both builds. A failed check of std::deque::at
    is now met after *this has been written to, so divide, operator/= and
    times_power_ten return the object they leave behind; for the other in-place
    operations the object left behind by an exception is not modelled here. *)
From Verif Require Import Base IntModel.
Local Open Scope list_scope.
Local Open Scope Z_scope.

(** src/Int.cpp:420-463 *)
Definition subtract_nd (this x : Int) : res Int :=
  bs <- sub_loop (bins this) (bins x) 0 ;; Ok (mkInt (clean_list bs) (negative this)).

(** src/Int.cpp:130-168 *)
Fixpoint addsub_nd (fuel : nat) (is_sub : bool) (x y : Int) : res Int :=
  match fuel with
  | O => OutOfFuel
  | S f =>
      if is_sub then
        if negative x && negative y then
          nx <- op_neg x ;; ny <- op_neg y ;; r <- addsub_nd f true nx ny ;; op_neg r
        else if negative x && negb (negative y) then
          nx <- op_neg x ;; r <- addsub_nd f false nx y ;; op_neg r
        else if negb (negative x) && negative y then
          ny <- op_neg y ;; addsub_nd f false x ny
        else
          gt <- op_gt x y ;;
          if gt : bool then subtract_nd (clean_bins x) y
          else r <- subtract_nd (clean_bins y) x ;; op_neg r
      else
        if negative x && negative y then
          nx <- op_neg x ;; ny <- op_neg y ;; r <- addsub_nd f false nx ny ;; op_neg r
        else if negative x && negb (negative y) then
          nx <- op_neg x ;; r <- addsub_nd f true nx y ;; op_neg r
        else if negb (negative x) && negative y then
          ny <- op_neg y ;; addsub_nd f true x ny
        else if (size y <? size x)%nat then add_ x y
        else add_ y x
  end.
Definition op_add_nd (x y : Int) : res Int := addsub_nd 3 false x y.
Definition op_sub_nd (x y : Int) : res Int := addsub_nd 3 true x y.

(** src/Int.cpp:200-239 *)
Fixpoint addsub_assign_nd (fuel : nat) (is_sub : bool) (this : Int) (other : option Int) : res Int :=
  match fuel with
  | O => OutOfFuel
  | S f =>
      let o := rd this other in
      if is_sub then
        if negative this && negative o then
          tmp <- op_neg o ;;
          this1 <- negate this ;;
          this2 <- addsub_assign_nd f true this1 (Some tmp) ;;
          negate this2
        else if negative this && negb (negative o) then
          this1 <- negate this ;;
          this2 <- addsub_assign_nd f false this1 other ;;
          negate this2
        else if negb (negative this) && negative o then
          no <- op_neg o ;; addsub_assign_nd f false this (Some no)
        else
          gt <- op_gt this o ;;
          if gt : bool then subtract_nd this o
          else r <- subtract_nd o this ;; negate r
      else
        if negative this && negative o then
          tmp <- op_neg o ;;
          this1 <- negate this ;;
          this2 <- addsub_assign_nd f false this1 (Some tmp) ;;
          negate this2
        else if negative this && negb (negative o) then
          this1 <- negate this ;;
          this2 <- addsub_assign_nd f true this1 other ;;
          negate this2
        else if negb (negative this) && negative o then
          no <- op_neg o ;; addsub_assign_nd f true this (Some no)
        else add_ this o
  end.
Definition add_assign_nd (this : Int) (other : option Int) : res Int := addsub_assign_nd 3 false this other.
Definition sub_assign_nd (this : Int) (other : option Int) : res Int := addsub_assign_nd 3 true this other.

(** src/Int.cpp:492-499 *)
Fixpoint mbi_loop_nd (xs : list Z) (y : Z) (i : nat) (result : Int) : res Int :=
  match xs with
  | [] => Ok result
  | b :: xs' =>
      prod <- i64 (y * b) ;;
      t <- Int_of_int64 prod i ;;
      r <- add_assign_nd result (Some t) ;;
      mbi_loop_nd xs' y (S i) r
  end.
Definition multiply_by_int_nd (x : Int) (y : Z) : res Int :=
  z <- set_value 0 ;; mbi_loop_nd (bins x) y 0 z.

(** src/Int.cpp:504-511, 170-180, 241-246 *)
Fixpoint mul_loop_nd (x : Int) (ys : list Z) (i : nat) (result : Int) : res Int :=
  match ys with
  | [] => Ok result
  | yb :: ys' =>
      b <- multiply_by_int_nd x yb ;;
      r <- add_assign_nd result (Some (Int_shifted b i)) ;;
      mul_loop_nd x ys' (S i) r
  end.
Definition multiply_nd (x y : Int) : res Int :=
  z <- set_value 0 ;; mul_loop_nd x (bins y) 0 z.
Definition op_mul_nd (x y : Int) : res Int :=
  r <- (if (size y <? size x)%nat then multiply_nd x y else multiply_nd y x) ;;
  if xorb (negative x) (negative y) then negate r else Ok r.
Definition mul_assign_nd (this : Int) (other : option Int) : res Int :=
  let o := rd this other in
  r <- multiply_nd this o ;;
  Ok (mkInt (bins r) (xorb (negative this) (negative o))).

(** src/Int.cpp:543-561, 583-598 *)
Fixpoint iter_quotient_nd (fuel : nat) (y x : Int) (b step : Z) : res (Z * Int) :=
  match fuel with
  | O => OutOfFuel
  | S f =>
      b' <- i32 (b + step) ;;
      prod <- multiply_by_int_nd x b' ;;
      r <- op_sub_nd y prod ;;
      if negb (negative r) && (cmp_bins x r <=? 0)
      then iter_quotient_nd f y x b' step
      else Ok (b, r)
  end.
Fixpoint qr_loop_nd (fuel : nat) (y x : Int) (step q : Z) (r : Int) : res (Z * Int) :=
  match fuel with
  | O => OutOfFuel
  | S f =>
      if step >? 1 then
        let step' := Z.quot step 2 in
        qr <- iter_quotient_nd ITER_FUEL y x q step' ;;
        qr_loop_nd f y x step' (fst qr) (snd qr)
      else Ok (q, r)
  end.
Definition quotient_and_remainder_nd (y x r0 : Int) : res (Z * Int) :=
  qr <- qr_loop_nd 32 y x BIN_LIMIT 0 r0 ;;
  q <- i32 (fst qr + 1) ;;
  Ok (q, snd qr).

(** How an unfinished statement ended. *)
Definition ended {A} (m : res A) : res unit := _ <- m ;; Ok tt.

(** The loop of Int::divide -- src/Int.cpp:618-641. [k] is i + 1. Returns the bins of
    *this and how the loop ended. *)
Fixpoint div_loop_nd (k : nat) (x_norm : Int) (bs : list Z) (r current : Int) : list Z * res unit :=
  match k with
  | O => (bs, Ok tt)
  | S i =>
      match (bi <- at_ bs i ;; set_nth (bins current) 0 bi) with
      | Ok cb =>
          let cur := mkInt cb (negative current) in
          if cmp_bins x_norm cur <=? 0 then
            match (qr <- quotient_and_remainder_nd cur x_norm r ;; bs' <- set_nth bs i (fst qr) ;; Ok (bs', snd qr)) with
            | Ok (bs', r') => div_loop_nd i x_norm bs' r' (clean_bins (Int_shifted r' 1))
            | m => (bs, ended m)
            end
          else
            match set_nth bs i 0 with
            | Ok bs' => div_loop_nd i x_norm (clean_list bs') r (clean_bins (Int_shifted cur 1))
            | m => (bs, ended m)
            end
      | m => (bs, ended m)
      end
  end.

(** Int::divide -- src/Int.cpp:603-643 *)
Definition divide_nd (this x : Int) : Int * res unit :=
  match equals_int32 x 0 with
  | Ok true => (this, Throw DivideByZero)
  | Ok false =>
      if cmp_bins this x <? 0 then in_place this (set_value 0)
      else
        match (if negative x then op_neg x else Ok x) with
        | Ok x_norm =>
            let '(bs, m) := div_loop_nd (size this) x_norm (bins this) Int_default Int_default in
            (mkInt bs (match m with Ok _ => xorb (negative this) (negative x) | _ => negative this end), m)
        | m => (this, ended m)
        end
  | m => (this, ended m)
  end.
Definition finish (p : Int * res unit) : res Int := _ <- snd p ;; Ok (fst p).

(** src/Int.cpp:182-186, 248-250 *)
Definition op_div_nd (x y : Int) : res Int := finish (divide_nd x y).
Definition div_assign_nd (this : Int) (other : option Int) : Int * res unit := divide_nd this (rd this other).

(** src/Int.cpp:648-673, 188-192, 252-256 *)
Definition modulo_nd (x y : Int) : res Int :=
  a <- (if negative x then negate x else Ok x) ;;
  b <- (if negative y then negate y else Ok y) ;;
  q <- op_div_nd a b ;;
  qb <- op_mul_nd q b ;;
  result <- op_sub_nd a qb ;;
  z <- equals_int32 result 0 ;;
  if z : bool then Ok result
  else if negative x && negative y then negate result
  else if negb (negative x) && negative y then add_assign_nd result (Some y)
  else if negative x && negb (negative y) then op_sub_nd y result
  else Ok result.
Definition op_mod_nd (x y : Int) : res Int := modulo_nd x y.
Definition mod_assign_nd (this : Int) (other : option Int) : Int * res unit := in_place this (modulo_nd this (rd this other)).

(** src/Int.cpp:684-699, 194-198, 258-262 *)
Fixpoint exponentiate_nd (fuel : nat) (x y : Int) : res Int :=
  match fuel with
  | O => OutOfFuel
  | S f =>
      y0 <- equals_int32 y 0 ;;
      if y0 : bool then set_value 1
      else
        y1 <- equals_int32 y 1 ;;
        if y1 : bool then Ok x
        else
          odd <- is_odd y ;;
          if odd : bool then
            one <- Int_of_int64 1 0 ;;
            ym1 <- op_sub_nd y one ;;
            a <- exponentiate_nd f x ym1 ;;
            op_mul_nd x a
          else
            half_y <- divide_by_int y 2 false ;;
            r <- exponentiate_nd f x half_y ;;
            op_mul_nd r r
  end.
Definition op_pow_nd (x y : Int) : res Int := exponentiate_nd (exp_fuel y) x y.
Definition pow_assign_nd (this : Int) (other : option Int) : Int * res unit := in_place this (op_pow_nd this (rd this other)).

(** src/Int.cpp:465-487 *)
Fixpoint iter_mul10_nd (n : nat) (x : Int) : res Int :=
  match n with
  | O => Ok x
  | S n' => ten <- Int_of_int64 10 0 ;; r <- mul_assign_nd x (Some ten) ;; iter_mul10_nd n' r
  end.
Fixpoint iter_div10_nd (n : nat) (x : Int) : Int * res unit :=
  match n with
  | O => (x, Ok tt)
  | S n' =>
      match Int_of_int64 10 0 with
      | Ok ten => match div_assign_nd x (Some ten) with (r, Ok _) => iter_div10_nd n' r | p => p end
      | m => (x, ended m)
      end
  end.
Definition times_power_ten_nd (this : Int) (power : Z) : Int * res unit :=
  if power >? 0 then
    in_place this (t <- iter_mul10_nd (Z.to_nat (Z.rem power BIN_WIDTH)) this ;;
                   Ok (mkInt (repeat 0 (Z.to_nat (Z.quot power BIN_WIDTH)) ++ bins t) (negative t)))
  else if power <? 0 then
    match i32 (- power) with
    | Ok pow =>
        match skipn (Z.to_nat (Z.quot pow BIN_WIDTH)) (bins this) with
        | [] => in_place this (set_value 0)
        | bs => iter_div10_nd (Z.to_nat (Z.rem pow BIN_WIDTH)) (mkInt bs (negative this))
        end
    | m => (this, ended m)
    end
  else (this, Ok tt).
