(** What programs of Frac calls without assertions should do, over pairs of integers
    (numerator, denominator). Of the model only the names of calls and events are used, and the
    value of the Int operands. *)
From Coq Require Import ZArith Znumtheory.
From Verif Require Import Base IntModel IntSpec IOSpec FracModel FracSpec PropsFrac FracHistory CatchModel PropsFracRelease IntCalls ReleaseCallsSpec.
Local Open Scope list_scope.
Local Open Scope Z_scope.

Definition pair_ := (Z * Z)%type.
Definition sign (s : Z) : Prop := s = 1 \/ s = -1.
(** q is n/d in lowest terms, not with a negative denominator; d may be 0 but not n as well *)
Definition lowest (n d : Z) (q : pair_) : Prop :=
  Z.gcd n d <> 0 /\ 0 <= snd q /\
  exists s, sign s /\ s * n = Z.gcd n d * fst q /\ s * d = Z.gcd n d * snd q.
(** What is left of n/d when reducing it throws std::out_of_range: finding the greatest common
    divisor failed, or dividing the numerator by it, or dividing the denominator. *)
Definition unreduced (n d : Z) (q : pair_) : Prop :=
  exists s, sign s /\ 0 <= s * d /\
    (q = (s * n, s * d) \/
     digits_left (s * n) (Z.gcd n d) (fst q) /\ snd q = s * d \/
     s * n = Z.gcd n d * fst q /\ digits_left (s * d) (Z.gcd n d) (snd q)).

(** The exponent used for n: |n|, unless |n| is one of the exponents ^ gets wrong (C104) *)
Definition exponent_of (n e : Z) : Prop := 0 <= e <= Z.abs n /\ (plain_exponent (Z.abs n) -> e = Z.abs n).
(** The numerator and denominator a call computes *)
Inductive computes (zs : nat -> pair_) : finstr -> Z -> Z -> Prop :=
| c_default d : computes zs (HDefault d) 0 1
| c_ofint d a : computes zs (HOfInt d a) (val a) 1
| c_make d a b : computes zs (HMake d a b) (val a) (val b)
| c_string d t n m : frac_string t n m -> computes zs (HString d t) n m
| c_recip d a : computes zs (HRecip d a) (snd (zs a)) (fst (zs a))
| c_bin o d a b : computes zs (HBin o d a b)
    (num o (fst (zs a)) (snd (zs a)) (fst (zs b)) (snd (zs b))) (den o (fst (zs a)) (snd (zs a)) (fst (zs b)) (snd (zs b)))
| c_intl o d a b : computes zs (HIntL o d a b) (num o (val a) 1 (fst (zs b)) (snd (zs b))) (den o (val a) 1 (fst (zs b)) (snd (zs b)))
| c_intr o d a b : computes zs (HIntR o d a b) (num o (fst (zs a)) (snd (zs a)) (val b) 1) (den o (fst (zs a)) (snd (zs a)) (val b) 1)
| c_pow d a n e : exponent_of (val n) e -> 0 <= val n -> computes zs (HPow d a n) (fst (zs a) ^ e) (snd (zs a) ^ e)
| c_pow_neg d a n e : exponent_of (val n) e -> val n < 0 -> computes zs (HPow d a n) (snd (zs a) ^ e) (fst (zs a) ^ e)
| c_assign o d b : computes zs (HAssign o d b)
    (num o (fst (zs d)) (snd (zs d)) (fst (zs b)) (snd (zs b))) (den o (fst (zs d)) (snd (zs d)) (fst (zs b)) (snd (zs b)))
| c_iassign o d b : computes zs (HIAssign o d b) (num o (fst (zs d)) (snd (zs d)) (val b) 1) (den o (fst (zs d)) (snd (zs d)) (val b) 1)
(* d ^= n ignores the sign of n *)
| c_pow_assign d n e : exponent_of (val n) e -> computes zs (HPowAssign d n) (fst (zs d) ^ e) (snd (zs d) ^ e).

Definition changes_in_place (i : finstr) : Prop :=
  match i with HAssign _ _ _ | HIAssign _ _ _ | HPowAssign _ _ => True | _ => False end.
Definition variable (i : finstr) : nat :=
  match i with
  | HDefault d | HOfInt d _ | HMake d _ _ | HString d _ | HCopy d _ | HRecip d _ | HBin _ d _ _ | HIntL _ d _ _ | HIntR _ d _ _
  | HPow d _ _ | HAssign _ d _ | HIAssign _ d _ | HPowAssign d _ => d
  end.
(** What a call may leave in its variable when it throws std::out_of_range, besides what was there *)
Definition spoils (zs : nat -> pair_) (i : finstr) (q : pair_) : Prop :=
  changes_in_place i /\
  ((exists n d, computes zs i n d /\ unreduced n d q) \/
   (exists o d b, i = HIAssign o d b /\ (o = FAdd \/ o = FSub) /\ snd q = snd (zs d) /\
      sum_left (fst (zs d)) (snd (zs d) * val b) (fst q))).

Definition pcmp (c : fcmp) (p q : pair_) : Prop :=
  match c with
  | CEq => p = q
  | CNe => p <> q
  | CLt => fst p * snd q < fst q * snd p
  | CGt => fst q * snd p < fst p * snd q
  | CLe => fst p * snd q <= fst q * snd p
  | CGe => fst q * snd p <= fst p * snd q
  end.
Definition pexec (zs : nat -> pair_) (s : stmt) (ev : event) (zs' : nat -> pair_) : Prop :=
  match s with
  | Cmp c a b => (forall k, zs' k = zs k) /\ exists r : bool, ev = Said r /\ (r = true <-> pcmp c (zs a) (zs b))
  | Do i =>
      let v := variable i in
      (forall k, k <> v -> zs' k = zs k) /\
      match ev with
      | Done => (exists a, i = HCopy v a /\ zs' v = zs a) \/
                (exists n d, computes zs i n d /\ (d = 0 -> changes_in_place i) /\ lowest n d (zs' v))
      | Caught DivideByZero =>
          exists n, computes zs i n 0 /\ (changes_in_place i -> n = 0 /\ zs' v = (0, 0)) /\ (~ changes_in_place i -> zs' v = zs v)
      | Caught InvalidArgument => zs' v = zs v /\ exists t, i = HString v t /\ forall n d, frac_string t n d -> d = 0
      | Caught OutOfRange => zs' v = zs v \/ spoils zs i (zs' v)
      | _ => False
      end
  end.
Inductive prun : (nat -> pair_) -> list stmt -> list event -> (nat -> pair_) -> Prop :=
| p_nil zs zs' : (forall k, zs' k = zs k) -> prun zs [] [] zs'
| p_cons zs s ev zs1 p evs zs' : pexec zs s ev zs1 -> prun zs1 p evs zs' -> prun zs (s :: p) (ev :: evs) zs'.
