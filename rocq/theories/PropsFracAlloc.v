(** C125: what the compound assignments of Frac leave in the object on their left when
    memory runs out -- src/Frac.cpp:100-124, 146-223. *)
From Verif Require Import Base IntModel IntSpec IntBasics IntAddSub FracModel FracSpec FracProofs AllocModel IntAllocModel IntAllocSpec FracAllocModel FracAllocSpec FracAllocProofs.
Import ListNotations.
Local Open Scope list_scope.
Local Open Scope Z_scope.

(** ** x += y, x -= y, x *= y, x /= y; y may be x itself ([None]), and no denominator is
    assumed to be positive *)
Theorem C125_sum fails half x y : let g := rd x y in canonical (top x) /\ canonical (bot x) -> canonical (top g) /\ canonical (bot g) ->
  fends (Fm_addsub fails half op_add y) (F_add_assign x y) (left_top_bot half x (val (top x) * val (bot g) + val (top g) * val (bot x)) (val (bot x) * val (bot g))) x.
Proof. intros g. apply (sum_frac fails half op_add Z.add x y). intros a b Ca Cb. apply op_add_ok; auto. Qed.
Print Assumptions C125_sum.
Theorem C125_difference fails half x y : let g := rd x y in canonical (top x) /\ canonical (bot x) -> canonical (top g) /\ canonical (bot g) ->
  fends (Fm_addsub fails half op_sub y) (F_sub_assign x y) (left_top_bot half x (val (top x) * val (bot g) - val (top g) * val (bot x)) (val (bot x) * val (bot g))) x.
Proof. intros g. apply (sum_frac fails half op_sub Z.sub x y). intros a b Ca Cb. apply op_sub_ok; auto. Qed.
Print Assumptions C125_difference.
Theorem C125_product fails half x y : let g := rd x y in canonical (top x) /\ canonical (bot x) -> canonical (top g) /\ canonical (bot g) ->
  fends (Fm_mul fails half y) (F_mul_assign x y) (left_top_bot half x (val (top x) * val (top g)) (val (bot x) * val (bot g))) x.
Proof. exact (prod_frac fails half x y). Qed.
Print Assumptions C125_product.
Theorem C125_quotient fails half x y : let g := rd x y in canonical (top x) /\ canonical (bot x) -> canonical (top g) /\ canonical (bot g) ->
  fends (Fm_div fails half y) (F_div_assign x y) (left_top_bot half x (val (top x) * val (bot g)) (val (bot x) * val (top g))) x.
Proof. exact (quot_frac fails half x y). Qed.
Print Assumptions C125_quotient.

(** ** x += a, x -= a, x *= a, x /= a, x ^= a with an Int a *)
Theorem C125_int_sum fails half x a : canonical (top x) /\ canonical (bot x) -> canonical a -> exists p, is_the (val (bot x) * val a) p /\
  fends (FIm_addsub fails (add_assign_m fails half) a) (FI_add_assign x a)
    (left_top_sum half (Bool.eqb (negative (top x)) (negative p)) x p (val (top x) + val (bot x) * val a)) x.
Proof. intros Cx Ca. destruct (int_sum_frac fails half false x a Cx Ca) as (p & Hp & H). exists p. split; [exact Hp|]. rewrite Bool.xorb_false_l in H. exact H. Qed.
Print Assumptions C125_int_sum.
Theorem C125_int_difference fails half x a : canonical (top x) /\ canonical (bot x) -> canonical a -> exists p, is_the (val (bot x) * val a) p /\
  fends (FIm_addsub fails (sub_assign_m fails half) a) (FI_sub_assign x a)
    (left_top_sum half (negb (Bool.eqb (negative (top x)) (negative p))) x p (val (top x) - val (bot x) * val a)) x.
Proof. exact (int_sum_frac fails half true x a). Qed.
Print Assumptions C125_int_difference.
Theorem C125_int_product fails half x a : canonical (top x) /\ canonical (bot x) -> canonical a ->
  fends (FIm_mul fails half a) (FI_mul_assign x a) (left_top half x (val (top x) * val a)) x.
Proof. exact (int_prod_frac fails half x a). Qed.
Print Assumptions C125_int_product.
Theorem C125_int_quotient fails half x a : canonical (top x) /\ canonical (bot x) -> canonical a ->
  fends (FIm_div fails half a) (FI_div_assign x a) (left_bot half x (val (bot x) * val a)) x.
Proof. exact (int_quot_frac fails half x a). Qed.
Print Assumptions C125_int_quotient.
Theorem C125_power fails half x a : canonical (top x) /\ canonical (bot x) -> canonical a ->
  exists e, is_the (Z.abs (val a)) e /\ fends (Fm_pow fails half a) (F_pow_assign x a) (left_pow half x e) x.
Proof. exact (pow_frac fails half x a). Qed.
Print Assumptions C125_power.

(** ** With the library's deque both members have bins, if the new numerator and the new
    denominator are not 0 *)
Theorem C125_number x v w z : canonical (top x) /\ canonical (bot x) -> v <> 0 -> w <> 0 -> left_top_bot half_gnu x v w z -> wf (top z) /\ wf (bot z).
Proof. exact (top_bot_left_wf x v w z). Qed.
Print Assumptions C125_number.

(** ** The strong guarantee is false, and what is left may be no fraction at all *)
Definition at_request (k n : nat) : bool := (n =? k)%nat.
Definition q (s : bool) (t b : list Z) : Frac := mkFrac (mkInt t s) (mkInt b false).
(* 1/2 *= 3/5 leaves 3/2; 1/500000000 *= 1/6 leaves 1/0 *)
Theorem C125_product_refuted :
  fst (fst (Fm_mul (at_request 3) half_gnu (Some (q false [3] [5])) (q false [1] [2]) 0%nat)) = q false [3] [2] /\
  fst (fst (Fm_mul (at_request 6) half_gnu (Some (q false [1] [6])) (q false [1] [500000000]) 0%nat)) = q false [1] [0] /\
  snd (Fm_mul (at_request 6) half_gnu (Some (q false [1] [6])) (q false [1] [500000000]) 0%nat) = NoMem.
Proof. vm_compute. repeat split. Qed.
(* 1/2 -= 1/2 leaves a numerator without bins; 1/2 += 1/2 leaves 4/2, 4/4 (= 1), 1/4 *)
Theorem C125_sum_refuted :
  Fm_addsub (at_request 8) half_gnu op_sub (Some (q false [1] [2])) (q false [1] [2]) 0%nat = (q false [] [4], 9%nat, NoMem) /\
  Fm_addsub (at_request 2) half_gnu op_add None (q false [1] [2]) 0%nat = (q false [4] [2], 3%nat, NoMem) /\
  Fm_addsub (at_request 6) half_gnu op_add None (q false [1] [2]) 0%nat = (q false [4] [4], 7%nat, NoMem) /\
  Fm_addsub (at_request 11) half_gnu op_add None (q false [1] [2]) 0%nat = (q false [1] [4], 12%nat, NoMem).
Proof. vm_compute. repeat split. Qed.
(* without a failure: 1/2 += 1/3 *)
Example C125_example : Fm_addsub (fun _ => false) half_gnu op_add (Some (q false [1] [3])) (q false [1] [2]) 0%nat = (q false [5] [6], 17%nat, Fin (Ok tt)).
Proof. vm_compute. reflexivity. Qed.
Example C125_example_zero : Fm_div (fun _ => false) half_gnu (Some (q false [0] [1])) (q false [0] [7]) 0%nat = (q false [0] [0], 11%nat, Fin (Throw DivideByZero)).
Proof. vm_compute. reflexivity. Qed.
