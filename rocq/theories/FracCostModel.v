(** Powers of Int (src/Int.cpp:516-530, 684-699) and the class Frac (src/Frac.hpp:20-60;
    src/Frac.cpp:100-124, 146-223) again, counting the rounds of the loops written in
    src/Int.cpp, src/Int.hpp and src/Frac.cpp as in IntCostModel.v: every function
    returns what the function of IntModel.v or FracModel.v returns (FracCost.v) and the
    number of rounds begun until then. A recursive call is not a round. What an in-place
    operation leaves behind when it fails is left out here (FracModel.v has it). *)
From Verif Require Import Base IntModel FracModel CostModel IntCostModel.
Local Open Scope list_scope.
Local Open Scope Z_scope.

(** src/Int.cpp:516-530 *)
Fixpoint dbi_loop_c (xs : list Z) (y r : Z) (acc : list Z) : counted (list Z) :=
  match xs with
  | [] => free (Ok acc)
  | b :: xs' =>
      lap (m <-- free (i64 (r * BIN_LIMIT)) ;;;
           d <-- free (i64 (m + b)) ;;;
           q <-- free (i64 (Z.quot d y)) ;;;
           dbi_loop_c xs' y (Z.rem d y) (to_int32 q :: acc))
  end.
Definition divide_by_int_c (x : Int) (y : Z) (rneg : bool) : counted Int :=
  if y =? 0 then free (Throw DivideByZero)
  else bs <-- dbi_loop_c (rev (bins x)) y 0 [] ;;;
       free (Ok (mkInt (match bs with [] => [0] | _ => bs end) rneg)).
(** src/Int.cpp:684-699, 194-198, 258-262 *)
Fixpoint exponentiate_c (fuel : nat) (x y : Int) : counted Int :=
  match fuel with
  | O => free OutOfFuel
  | S f =>
      y0 <-- equals_c y 0 ;;;
      if y0 : bool then free (set_value 1)
      else
        y1 <-- equals_c y 1 ;;;
        if y1 : bool then free (Ok x)
        else
          odd <-- free (is_odd y) ;;;
          if odd : bool then
            one <-- of_int64_c 1 0 ;;;
            ym1 <-- op_sub_c y one ;;;
            a <-- exponentiate_c f x ym1 ;;;
            op_mul_c x a
          else
            half_y <-- divide_by_int_c y 2 false ;;;
            r <-- exponentiate_c f x half_y ;;;
            op_mul_c r r
  end.
Definition op_pow_c (x y : Int) : counted Int := exponentiate_c (exp_fuel y) x y.
Definition pow_assign_c (this : Int) (other : option Int) : counted Int := op_pow_c this (rd this other).

(** src/Frac.cpp:110-124; two copies, then the loop *)
Fixpoint gcd_loop_c (fuel : nat) (a b : Int) : counted Int :=
  match fuel with
  | O => free OutOfFuel
  | S f =>
      z <-- equals_c b 0 ;;;
      if z : bool then free (Ok a)
      else lap (r <-- op_mod_c a b ;;; gcd_loop_c f b r)
  end.
Definition nochecks_gcd_c (x y : Int) : counted Int :=
  a <-- copy_c x ;;; b <-- copy_c y ;;; gcd_loop_c (gcd_fuel b) a b.
(** src/Frac.cpp:100-108 *)
Definition GCD_c (x y : Int) : counted Int :=
  absx <-- abs_c x ;;;
  absy <-- abs_c y ;;;
  lt <-- lt_c absx absy ;;;
  if lt : bool then nochecks_gcd_c absy absx else nochecks_gcd_c absx absy.
(** src/Frac.cpp:146-157 *)
Definition normalize_c (f : Frac) : counted Frac :=
  f <-- (if is_negative (bot f)
         then b <-- negate_c (bot f) ;;; t <-- negate_c (top f) ;;; free (Ok (mkFrac t b))
         else free (Ok f)) ;;;
  c <-- GCD_c (top f) (bot f) ;;;
  t <-- div_assign_c (top f) (Some c) ;;;
  b <-- div_assign_c (bot f) (Some c) ;;;
  free (Ok (mkFrac t b)).
(** src/Frac.hpp:24-33; both numbers are copied *)
Definition Frac_make_c (t b : Int) : counted Frac :=
  t <-- copy_c t ;;; b <-- copy_c b ;;;
  z <-- equals_c b 0 ;;;
  if z : bool then free (Throw DivideByZero) else normalize_c (mkFrac t b).
Definition reciprocal_c (f : Frac) : counted Frac := Frac_make_c (bot f) (top f).

(** src/Frac.hpp:40-45 *)
Definition eq_c (x y : Int) : counted bool := c <-- cmp_c x y ;;; free (Ok (c =? 0)).
Definition F_eq_c (x y : Frac) : counted bool :=
  a <-- eq_c (top x) (top y) ;;; if a : bool then eq_c (bot x) (bot y) else free (Ok false).
Definition F_lt_c (x y : Frac) : counted bool :=
  a <-- op_mul_c (top x) (bot y) ;;; b <-- op_mul_c (top y) (bot x) ;;; lt_c a b.

(** src/Frac.hpp:47-60; p is + or - *)
Definition F_addsub_c (p : Int -> Int -> counted Int) (x y : Frac) : counted Frac :=
  a <-- op_mul_c (top x) (bot y) ;;; b <-- op_mul_c (top y) (bot x) ;;; t <-- p a b ;;;
  d <-- op_mul_c (bot x) (bot y) ;;; Frac_make_c t d.
Definition F_add_c := F_addsub_c op_add_c.
Definition F_sub_c := F_addsub_c op_sub_c.
Definition F_mul_c (x y : Frac) : counted Frac :=
  t <-- op_mul_c (top x) (top y) ;;; d <-- op_mul_c (bot x) (bot y) ;;; Frac_make_c t d.
Definition F_div_c (x y : Frac) : counted Frac :=
  t <-- op_mul_c (top x) (bot y) ;;; d <-- op_mul_c (bot x) (top y) ;;; Frac_make_c t d.
Definition IF_addsub_c (p : Int -> Int -> counted Int) (a : Int) (x : Frac) : counted Frac :=
  q <-- op_mul_c a (bot x) ;;; t <-- p q (top x) ;;; Frac_make_c t (bot x).
Definition FI_addsub_c (p : Int -> Int -> counted Int) (x : Frac) (a : Int) : counted Frac :=
  q <-- op_mul_c a (bot x) ;;; t <-- p (top x) q ;;; Frac_make_c t (bot x).
Definition IF_mul_c (a : Int) (x : Frac) : counted Frac := t <-- op_mul_c a (top x) ;;; Frac_make_c t (bot x).
Definition IF_div_c (a : Int) (x : Frac) : counted Frac := t <-- op_mul_c a (bot x) ;;; Frac_make_c t (top x).
Definition FI_mul_c (x : Frac) (a : Int) : counted Frac := t <-- op_mul_c a (top x) ;;; Frac_make_c t (bot x).
Definition FI_div_c (x : Frac) (a : Int) : counted Frac := d <-- op_mul_c (bot x) a ;;; Frac_make_c (top x) d.
(** src/Frac.cpp:184-191 *)
Definition F_pow_c (x : Frac) (a : Int) : counted Frac :=
  if is_negative a then
    na <-- op_neg_c a ;;; t <-- op_pow_c (bot x) na ;;; b <-- op_pow_c (top x) na ;;; Frac_make_c t b
  else t <-- op_pow_c (top x) a ;;; b <-- op_pow_c (bot x) a ;;; Frac_make_c t b.

(** src/Frac.cpp:159-182; /= copies the other numerator *)
Definition F_addsub_assign_c (p : Int -> Int -> counted Int) (x : Frac) (y : option Frac) : counted Frac :=
  let g := rd x y in
  a <-- op_mul_c (top x) (bot g) ;;; b <-- op_mul_c (top g) (bot x) ;;; t <-- p a b ;;;
  d <-- mul_assign_c (bot x) (bot_of y) ;;; normalize_c (mkFrac t d).
Definition F_add_assign_c := F_addsub_assign_c op_add_c.
Definition F_sub_assign_c := F_addsub_assign_c op_sub_c.
Definition F_mul_assign_c (x : Frac) (y : option Frac) : counted Frac :=
  t <-- mul_assign_c (top x) (top_of y) ;;; d <-- mul_assign_c (bot x) (bot_of y) ;;; normalize_c (mkFrac t d).
Definition F_div_assign_c (x : Frac) (y : option Frac) : counted Frac :=
  tmp <-- copy_c (top (rd x y)) ;;;
  t <-- mul_assign_c (top x) (Some (bot (rd x y))) ;;; d <-- mul_assign_c (bot x) (Some tmp) ;;; normalize_c (mkFrac t d).
(** src/Frac.cpp:193-223 *)
Definition FI_addsub_assign_c (p : Int -> option Int -> counted Int) (x : Frac) (a : Int) : counted Frac :=
  q <-- op_mul_c (bot x) a ;;; t <-- p (top x) (Some q) ;;; normalize_c (mkFrac t (bot x)).
Definition FI_mul_assign_c (x : Frac) (a : Int) : counted Frac :=
  t <-- mul_assign_c (top x) (Some a) ;;; normalize_c (mkFrac t (bot x)).
Definition FI_div_assign_c (x : Frac) (a : Int) : counted Frac :=
  d <-- mul_assign_c (bot x) (Some a) ;;; normalize_c (mkFrac (top x) d).
Definition F_pow_assign_c (x : Frac) (a : Int) : counted Frac :=
  e <-- (if is_negative a then op_neg_c a else free (Ok a)) ;;;
  d <-- pow_assign_c (bot x) (Some e) ;;; t <-- pow_assign_c (top x) (Some e) ;;; normalize_c (mkFrac t d).
