(** Property theorems: C110, fractions with a zero denominator. *)
From Coq Require Import QArith.
From Verif Require Import Base IntModel IntSpec IntBasics FracModel FracSpec FracProofs ExtSpec ExtProofs PropsFrac.
Local Open Scope Z_scope.

(** ** C110 *)
(** x op= y for rationals, 1/0 and -1/0; y may be x itself. *)
Theorem C110_assign : forall x y ex ey, is_ext x ex -> is_ext (rd x y) ey ->
  leaves_ext (F_add_assign x y) (e_add ex ey) /\ leaves_ext (F_sub_assign x y) (e_add ex (e_opp ey)) /\
  leaves_ext (F_mul_assign x y) (e_mul ex ey) /\ leaves_ext (F_div_assign x y) (e_div ex ey).
Proof. intros x y ex ey Hx Hy. splits; [apply F_add_ext|apply F_sub_ext|apply F_mul_ext|apply F_div_ext]; auto. Qed.
(** x op= a for an Int a. *)
Theorem C110_assign_int : forall x a ex, is_ext x ex -> canonical a ->
  leaves_ext (FI_add_assign x a) (e_add ex (Fin (inject_Z (val a)))) /\
  leaves_ext (FI_sub_assign x a) (e_add ex (e_opp (Fin (inject_Z (val a))))) /\
  leaves_ext (FI_mul_assign x a) (e_mul ex (Fin (inject_Z (val a)))) /\
  leaves_ext (FI_div_assign x a) (e_div ex (Fin (inject_Z (val a)))).
Proof. intros x a ex Hx Ca. splits; [apply FI_add_ext|apply FI_sub_ext|apply FI_mul_ext|apply FI_div_ext]; auto. Qed.
(** The operators that return a new Frac return rationals only, and throw where the result is
    infinite or there is none. *)
Theorem C110_binary : forall x y ex ey, is_ext x ex -> is_ext y ey ->
  returns_ext (F_add x y) (e_add ex ey) /\ returns_ext (F_sub x y) (e_add ex (e_opp ey)) /\
  returns_ext (F_mul x y) (e_mul ex ey) /\ returns_ext (F_div x y) (e_div ex ey) /\ returns_ext (reciprocal x) (e_div (Fin 1) ex).
Proof. intros x y ex ey Hx Hy. splits; [apply F_add_bin|apply F_sub_bin|apply F_mul_bin|apply F_div_bin|apply reciprocal_ext]; auto. Qed.
(** Comparison. *)
Theorem C110_order : forall x y ex ey, is_ext x ex -> is_ext y ey ->
  (exists l, F_lt x y = Ok l /\ F_gt y x = Ok l /\ F_ge x y = Ok (negb l) /\ F_le y x = Ok (negb l) /\ (l = true <-> e_lt ex ey)) /\
  (exists e, F_eq x y = Ok e /\ F_ne x y = Ok (negb e) /\ (e = true <-> e_eq ex ey)).
Proof.
  intros x y ex ey Hx Hy. destruct (F_lt_ext x y ex ey Hx Hy) as (l & El & Hl). destruct (F_eq_ext x y ex ey Hx Hy) as (e & Ee & He). split.
  - exists l. unfold F_gt, F_ge, F_le. rewrite El. splits; auto.
  - exists e. unfold F_ne. rewrite Ee. splits; auto.
Qed.
(** No assertion fails while numerators and denominators are at most 700000000. *)
Theorem C110_small : forall x y ex ey, is_ext x ex -> is_ext (rd x y) ey -> within 700000000 x -> within 700000000 (rd x y) ->
  snd (F_add_assign x y) <> Abort /\ snd (F_sub_assign x y) <> Abort /\ snd (F_mul_assign x y) <> Abort /\ snd (F_div_assign x y) <> Abort.
Proof. exact in_place_small. Qed.
(** The order is not the one of the extended line: -1/0 is not below 1/0, and 1/0 <= -1/0. *)
Theorem C110_infinities_refuted : F_lt (inf true) (inf false) = Ok false /\ F_le (inf false) (inf true) = Ok true /\
  F_add_assign (inf false) (Some (inf false)) = (fr 0 0, Throw DivideByZero).
Proof. vm_compute. auto. Qed.
(** 3/4 /= 0; += -5/6; *= -2/7; /= -4/9; 7/3 /= it. *)
Example C110_ex : F_div_assign (fr 3 4) (Some (fr 0 1)) = (inf false, Ok tt) /\ F_add_assign (inf false) (Some (fr (-5) 6)) = (inf false, Ok tt) /\
  F_mul_assign (inf false) (Some (fr (-2) 7)) = (inf true, Ok tt) /\ F_div_assign (inf true) (Some (fr (-4) 9)) = (inf false, Ok tt) /\
  F_div_assign (fr 7 3) (Some (inf false)) = (fr 0 1, Ok tt) /\ F_div_assign (inf true) None = (fr 0 0, Throw DivideByZero) /\
  F_mul_assign (inf false) (Some (fr 0 1)) = (fr 0 0, Throw DivideByZero) /\ F_add (inf false) (fr 1 2) = Throw DivideByZero /\
  FI_div_assign (inf false) (i (-3)) = (inf true, Ok tt) /\ FI_sub_assign (inf true) (i 5) = (inf true, Ok tt) /\
  F_lt (inf true) (fr (-1000) 1) = Ok true /\ F_lt (fr 1000 1) (inf false) = Ok true /\ F_eq (inf true) (inf true) = Ok true.
Proof. vm_compute. splits; reflexivity. Qed.
Example C110_ex_is : is_ext (inf true) (Inf true) /\ is_ext (fr (-5) 6) (Fin (-5 # 6)) /\ e_div (Fin (3 # 4)) (Fin 0) = Some (Inf false) /\
  e_mul (Inf false) (Fin (-2 # 7)) = Some (Inf true) /\ e_add (Inf true) (Inf true) = None /\ e_div (Fin (7 # 3)) (Inf true) = Some (Fin 0).
Proof. splits; lazymatch goal with |- is_ext (inf _) _ => reflexivity | |- is_ext _ _ => split; [exr|vm_compute; reflexivity] | _ => vm_compute; reflexivity end. Qed.
Print Assumptions C110_assign.
Print Assumptions C110_assign_int.
Print Assumptions C110_binary.
Print Assumptions C110_order.
Print Assumptions C110_small.
Print Assumptions C110_infinities_refuted.
