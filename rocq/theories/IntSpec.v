(** Specification vocabulary for Int: the integer an Int denotes, and when its
    representation is well formed / canonical.  Nothing here refers to how the
    operations are implemented. *)
From Verif Require Import Base IntModel.

(** The radix: ten to the ninth. *)
Notation B := (1000000000) (only parsing).

(** The number written by a list of base-10^9 digits, least significant first. *)
Fixpoint bins_val (l : list Z) : Z :=
  match l with
  | [] => 0
  | b :: l' => b + B * bins_val l'
  end.

(** The integer denoted by an Int. *)
Definition val (x : Int) : Z :=
  if negative x then - bins_val (bins x) else bins_val (bins x).

Definition digit_ok (b : Z) : Prop := 0 <= b < B.

(** Well formed: at least one bin, every bin holds nine decimal digits.
    Redundant leading zero bins and a negative zero are allowed. *)
Definition wf (x : Int) : Prop := bins x <> [] /\ Forall digit_ok (bins x).

(** No redundant leading zero bin. *)
Definition trimmed (l : list Z) : Prop := l <> [] /\ ((length l > 1)%nat -> last l 0 <> 0).

(** Canonical: well formed, no redundant bins, no negative zero. *)
Definition canonical (x : Int) : Prop :=
  wf x /\ trimmed (bins x) /\ (negative x = true -> val x <> 0).

(** Boolean versions, for examples. *)
Definition digit_okb (b : Z) : bool := (0 <=? b) && (b <? B).
Definition wfb (x : Int) : bool :=
  negb (match bins x with [] => true | _ => false end) && forallb digit_okb (bins x).
Definition canonicalb (x : Int) : bool :=
  wfb x && ((length (bins x) <=? 1)%nat || negb (last (bins x) 0 =? 0))
  && (negb (negative x) || negb (bins_val (bins x) =? 0)).

(** The divisions that do not trip an assertion: for b <= a, no base-10^9 digit
    of a strictly between the leading one and the last one is zero while the part of
    a above that digit is still smaller than b.  (For a < b nothing is required.) *)
Definition div_safe (a b : Z) : Prop :=
  a < b \/
  forall i : Z, 1 <= i -> B ^ (i + 1) <= a -> a / B ^ (i + 1) < b -> (a / B ^ i) mod B <> 0.

(** Exponents for which recursive squaring never meets a number mistaken for
    one: no halving of y is a power of the radix (other than 1) or its successor. *)
Definition no_radix_power (y : Z) : Prop :=
  forall j k : Z, 0 <= j -> 1 <= k -> y / 2 ^ j <> B ^ k /\ y / 2 ^ j <> B ^ k + 1.

(** Recursive squaring with exponent y takes the j-th halving of y for the exponent
    1: it is a power of the radix, reached after at most 29 halvings or with a one
    among the last 29 bits shifted out; or the successor of a power of the radix. *)
Definition radix_met (y j k : Z) : Prop :=
  0 <= j /\ 1 <= k /\
  (y / 2 ^ j = B ^ k + 1 \/ y / 2 ^ j = B ^ k /\ (j <= 29 \/ (y / 2 ^ (j - 29)) mod 2 ^ 29 <> 0)).

(** Some proper halving of y is 2^29, i.e. y >= 2^30 and its thirty leading bits are
    a one followed by zeroes. *)
Definition leads_to_2_29 (y : Z) : Prop := exists t : Z, 1 <= t /\ y / 2 ^ t = 2 ^ 29.

(** The exponent that recursive squaring really raises to, looking at the halvings
    from the [lo]-th on: up to the first one mistaken for 1, if there is one. *)
Definition power_taken (lo y e : Z) : Prop :=
  (exists j k, lo <= j /\ radix_met y j k /\ (forall j' k', lo <= j' -> radix_met y j' k' -> j <= j') /\
     e = y - 2 ^ j * (B ^ k - 1)) \/
  ((forall j k, lo <= j -> ~ radix_met y j k) /\ ~ leads_to_2_29 y /\ e = y).
(** No halving is mistaken for 1, and none is 2^29 *)
Definition exact_exponent (y : Z) : Prop := (forall j k, ~ radix_met y j k) /\ ~ leads_to_2_29 y.
(** It stops at an assertion. *)
Definition power_stops (lo y : Z) : Prop := (forall j k, lo <= j -> ~ radix_met y j k) /\ leads_to_2_29 y.
