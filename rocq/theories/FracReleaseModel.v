(** Class Frac when assertions are compiled out (see ReleaseModel.v). Frac itself has no
    assertions: these are the functions of FracModel.v over the operations of Int without
    assertions. An Int that fails in operator/= is left changed, so normalize is written
    with [put_top] and [put_bot], which store what is left; operator*=, operator^=, += and
    -= of Int leave their object as it was when they throw on the Ints reached here. *)
From Coq Require Import Ascii String.
From Coq Require Import SpecFloat.
From Verif Require Import Base IntModel IOModel FracModel ReleaseModel.
Local Open Scope list_scope.

(** src/Frac.cpp:110-124, 100-108 *)
Fixpoint gcd_loop_nd (fuel : nat) (a b : Int) : res Int :=
  match fuel with
  | O => OutOfFuel
  | S f =>
      z <- equals_int32 b 0 ;;
      if z : bool then Ok a
      else r <- op_mod_nd a b ;; gcd_loop_nd f b r
  end.
Definition nochecks_gcd_nd (x y : Int) : res Int := gcd_loop_nd (gcd_fuel y) x y.
Definition GCD_nd (x y : Int) : res Int :=
  absx <- abs_Int x ;;
  absy <- abs_Int y ;;
  lt <- op_lt absx absy ;;
  if lt : bool then nochecks_gcd_nd absy absx else nochecks_gcd_nd absx absy.

(** A member after an operation that may leave it changed when it fails *)
Definition put_top (f : Frac) (p : Int * res unit) : fst_res := (mkFrac (fst p) (bot f), snd p).
Definition put_bot (f : Frac) (p : Int * res unit) : fst_res := (mkFrac (top f) (fst p), snd p).

(** src/Frac.cpp:146-157 *)
Definition normalize_nd (f : Frac) : fst_res :=
  fthen (if is_negative (bot f)
         then fthen (set_bot f (negate (bot f))) (fun f => set_top f (negate (top f)))
         else (f, Ok tt)) (fun f =>
  match GCD_nd (top f) (bot f) with
  | Ok c => fthen (put_top f (div_assign_nd (top f) (Some c))) (fun f => put_bot f (div_assign_nd (bot f) (Some c)))
  | m => fail_with f m
  end).

(** src/Frac.hpp:28-33, 38; src/Frac.cpp:126-144 *)
Definition Frac_make_nd (t b : Int) : res Frac :=
  z <- equals_int32 b 0 ;;
  if z : bool then Throw DivideByZero else result (normalize_nd (mkFrac t b)).
Definition reciprocal_nd (f : Frac) : res Frac := Frac_make_nd (bot f) (top f).
Definition Frac_of_string_nd (x : chars) : res Frac :=
  match x with
  | [] => Frac_default
  | _ =>
      f <- match find_slash x with
           | None => t <- Int_of_string x ;; b <- Int_of_int64 1 0 ;; Ok (mkFrac t b)
           | Some (l, r) => t <- Int_of_string l ;; b <- Int_of_string r ;; Ok (mkFrac t b)
           end ;;
      z <- equals_int32 (bot f) 0 ;;
      if z : bool then Throw InvalidArgument else result (normalize_nd f)
  end.

(** src/Frac.hpp:40-45; == and != make no products *)
Definition F_lt_nd (x y : Frac) : res bool :=
  a <- op_mul_nd (top x) (bot y) ;; b <- op_mul_nd (top y) (bot x) ;; op_lt a b.
Definition F_gt_nd (x y : Frac) : res bool := F_lt_nd y x.
Definition F_le_nd (x y : Frac) : res bool := l <- F_lt_nd y x ;; Ok (negb l).
Definition F_ge_nd (x y : Frac) : res bool := l <- F_lt_nd x y ;; Ok (negb l).

(** src/Frac.hpp:47-60 *)
Definition F_add_nd (x y : Frac) : res Frac :=
  a <- op_mul_nd (top x) (bot y) ;; b <- op_mul_nd (top y) (bot x) ;; t <- op_add_nd a b ;;
  d <- op_mul_nd (bot x) (bot y) ;; Frac_make_nd t d.
Definition F_sub_nd (x y : Frac) : res Frac :=
  a <- op_mul_nd (top x) (bot y) ;; b <- op_mul_nd (top y) (bot x) ;; t <- op_sub_nd a b ;;
  d <- op_mul_nd (bot x) (bot y) ;; Frac_make_nd t d.
Definition F_mul_nd (x y : Frac) : res Frac :=
  t <- op_mul_nd (top x) (top y) ;; d <- op_mul_nd (bot x) (bot y) ;; Frac_make_nd t d.
Definition F_div_nd (x y : Frac) : res Frac :=
  t <- op_mul_nd (top x) (bot y) ;; d <- op_mul_nd (bot x) (top y) ;; Frac_make_nd t d.
Definition IF_add_nd (a : Int) (x : Frac) : res Frac :=
  p <- op_mul_nd a (bot x) ;; t <- op_add_nd p (top x) ;; Frac_make_nd t (bot x).
Definition IF_sub_nd (a : Int) (x : Frac) : res Frac :=
  p <- op_mul_nd a (bot x) ;; t <- op_sub_nd p (top x) ;; Frac_make_nd t (bot x).
Definition IF_mul_nd (a : Int) (x : Frac) : res Frac := t <- op_mul_nd a (top x) ;; Frac_make_nd t (bot x).
Definition IF_div_nd (a : Int) (x : Frac) : res Frac := t <- op_mul_nd a (bot x) ;; Frac_make_nd t (top x).
Definition FI_add_nd (x : Frac) (a : Int) : res Frac :=
  p <- op_mul_nd a (bot x) ;; t <- op_add_nd (top x) p ;; Frac_make_nd t (bot x).
Definition FI_sub_nd (x : Frac) (a : Int) : res Frac :=
  p <- op_mul_nd a (bot x) ;; t <- op_sub_nd (top x) p ;; Frac_make_nd t (bot x).
Definition FI_mul_nd (x : Frac) (a : Int) : res Frac := t <- op_mul_nd a (top x) ;; Frac_make_nd t (bot x).
Definition FI_div_nd (x : Frac) (a : Int) : res Frac := d <- op_mul_nd (bot x) a ;; Frac_make_nd (top x) d.

(** src/Frac.cpp:184-191 *)
Definition F_pow_nd (x : Frac) (a : Int) : res Frac :=
  if is_negative a then
    na <- op_neg a ;; t <- op_pow_nd (bot x) na ;; b <- op_pow_nd (top x) na ;; Frac_make_nd t b
  else t <- op_pow_nd (top x) a ;; b <- op_pow_nd (bot x) a ;; Frac_make_nd t b.

(** src/Frac.cpp:159-182 *)
Definition F_addsub_assign_nd (op : Int -> Int -> res Int) (x : Frac) (y : option Frac) : fst_res :=
  let g := rd x y in
  fthen (set_top x (a <- op_mul_nd (top x) (bot g) ;; b <- op_mul_nd (top g) (bot x) ;; op a b)) (fun x =>
  fthen (set_bot x (mul_assign_nd (bot x) (bot_of y))) normalize_nd).
Definition F_add_assign_nd := F_addsub_assign_nd op_add_nd.
Definition F_sub_assign_nd := F_addsub_assign_nd op_sub_nd.
Definition F_mul_assign_nd (x : Frac) (y : option Frac) : fst_res :=
  fthen (set_top x (mul_assign_nd (top x) (top_of y))) (fun x =>
  fthen (set_bot x (mul_assign_nd (bot x) (bot_of y))) normalize_nd).
Definition F_div_assign_nd (x : Frac) (y : option Frac) : fst_res :=
  let tmp := top (rd x y) in
  fthen (set_top x (mul_assign_nd (top x) (Some (bot (rd x y))))) (fun x =>
  fthen (set_bot x (mul_assign_nd (bot x) (Some tmp))) normalize_nd).

(** src/Frac.cpp:193-223 *)
Definition FI_add_assign_nd (x : Frac) (a : Int) : fst_res :=
  fthen (set_top x (p <- op_mul_nd (bot x) a ;; add_assign_nd (top x) (Some p))) normalize_nd.
Definition FI_sub_assign_nd (x : Frac) (a : Int) : fst_res :=
  fthen (set_top x (p <- op_mul_nd (bot x) a ;; sub_assign_nd (top x) (Some p))) normalize_nd.
Definition FI_mul_assign_nd (x : Frac) (a : Int) : fst_res :=
  fthen (set_top x (mul_assign_nd (top x) (Some a))) normalize_nd.
Definition FI_div_assign_nd (x : Frac) (a : Int) : fst_res :=
  fthen (set_bot x (mul_assign_nd (bot x) (Some a))) normalize_nd.
Definition F_pow_assign_nd (x : Frac) (a : Int) : fst_res :=
  match (if is_negative a then op_neg a else Ok a) with
  | Ok e => fthen (put_bot x (pow_assign_nd (bot x) (Some e))) (fun x =>
            fthen (put_top x (pow_assign_nd (top x) (Some e))) normalize_nd)
  | m => fail_with x m
  end.

(** src/Frac.cpp:63-98 *)
Definition from_double_nd (x : spec_float) (p : Z) : res Frac :=
  let sx := fixed_text x (stream_precision p) in
  if negb (isFinite x) then Throw InvalidArgument
  else
    match find_dot sx with
    | None => UB
    | Some (l, r) =>
        let num_frac_digits := 1 + Z.of_nat (length r) in
        t <- Int_of_string (l ++ r) ;;
        b <- Int_of_int64 1 0 ;;
        b <- finish (times_power_ten_nd b (num_frac_digits - 1)) ;;
        Frac_make_nd t b
    end.
