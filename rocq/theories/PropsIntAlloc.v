(** C124: what the compound assignments of Int leave in the object on their left when memory
    runs out -- src/Int.cpp:200-262, 337-341, 394-463, 603-643, src/Int.hpp:39. *)
From Verif Require Import Base IntModel IntSpec IntBasics AllocModel IntAllocModel IntAllocSpec IntAllocProofs.
Import ListNotations.
Local Open Scope list_scope.
Local Open Scope Z_scope.

(** ** x += y and x -= y, y possibly x itself ([None]) *)
Theorem C124_sum fails half x o : let y := rd x o in canonical x -> canonical y ->
  ends (add_assign_m fails half o) (add_assign x o) (left_by_sum half (Bool.eqb (negative x) (negative y)) x y) x.
Proof. intros y Cx Cy. pose proof (sum_ends fails half false x o Cx Cy) as H. rewrite Bool.xorb_false_l in H. exact H. Qed.
Print Assumptions C124_sum.
Theorem C124_difference fails half x o : let y := rd x o in canonical x -> canonical y ->
  ends (sub_assign_m fails half o) (sub_assign x o) (left_by_sum half (negb (Bool.eqb (negative x) (negative y))) x y) x.
Proof. intros y Cx Cy. exact (sum_ends fails half true x o Cx Cy). Qed.
Print Assumptions C124_difference.

(** ** x *= y, x %= y, x ^= y *)
Theorem C124_product fails half x o :
  ends (mul_assign_m fails half o) (mul_assign x o) (fun z => z = x \/ exists r, mul_assign x o = Ok r /\ left_by_result half x r z) x.
Proof. exact (mul_ends fails half x o). Qed.
Print Assumptions C124_product.
Theorem C124_remainder fails half x o :
  ends (mod_assign_m fails half o) (mod_assign x o) (fun z => z = x \/ exists r, mod_assign x o = Ok r /\ left_by_result half x r z) x.
Proof. exact (mod_ends fails half x o). Qed.
Print Assumptions C124_remainder.
Theorem C124_power fails half x o :
  ends (pow_assign_m fails half o) (pow_assign x o) (fun z => z = x \/ exists r, pow_assign x o = Ok r /\ left_by_result half x r z) x.
Proof. exact (pow_ends fails half x o). Qed.
Print Assumptions C124_power.

(** ** x /= y *)
Theorem C124_quotient fails x o : let y := rd x o in wf x -> wf y ->
  ends (div_assign_m fails o) (div_assign x o) (left_by_division x y) x.
Proof. exact (division_ends fails x o). Qed.
Print Assumptions C124_quotient.

(** ** When nothing is lost: a sum of natural numbers that needs no more bins, a difference
    of natural numbers that is positive, the division by 0 *)
Theorem C124_kept fails half x y : canonical x -> canonical y -> 0 <= val x -> 0 <= val y ->
  (val x + val y < (10 ^ 9) ^ Z.of_nat (Nat.max (length (bins x)) (length (bins y))) ->
     ends (add_assign_m fails half (Some y)) (add_assign x (Some y)) (fun z => z = x) x) /\
  (val y < val x -> ends (sub_assign_m fails half (Some y)) (sub_assign x (Some y)) (fun z => z = x) x) /\
  (val y = 0 -> ends (div_assign_m fails (Some y)) (Throw DivideByZero) (fun z => z = x) x).
Proof.
  intros Cx Cy Px Py. assert (Nx : negative x = false) by (rewrite (canonical_neg_eq x Cx); apply Z.ltb_ge; exact Px).
  assert (Ny : negative y = false) by (rewrite (canonical_neg_eq y Cy); apply Z.ltb_ge; exact Py).
  splits; intros H n.
  - pose proof (C124_sum fails half x (Some y) Cx Cy n) as G. cbn [rd] in G. rewrite Nx, Ny in G. destruct (add_assign_m _ _ _ x n) as [[z j] [m|]]; [exact G|].
    destruct G as [G|[[G _]|(k & -> & G & _)]]; [exact G|lia|]. rewrite !Z.abs_eq in G by assumption. lia.
  - pose proof (C124_difference fails half x (Some y) Cx Cy n) as G. cbn [rd] in G. rewrite Nx, Ny in G. destruct (sub_assign_m _ _ _ x n) as [[z j] [m|]]; [exact G|].
    destruct G as [G|[[G _]|(G & _)]]; [exact G|lia|]. lia.
  - pose proof (C124_quotient fails x (Some y) (canonical_wf x Cx) (canonical_wf y Cy) n) as G. cbn [rd] in G. unfold div_assign in G. cbn [rd] in G. rewrite IntDiv.divide_by_zero in G by auto.
    unfold div_assign_m, andnow, here, may in *. cbn [rd] in *. destruct (fails n); [reflexivity|].
    unfold divide_m, andnow, here, just in *. rewrite equals_int32_0 in * by auto. assert (A : aval y = 0) by (rewrite val_aval, Ny in H; exact H). rewrite A in *. exact G.
Qed.
Print Assumptions C124_kept.

(** ** With the library's deque a number is left, except by /= when |x| < |y| *)
Theorem C124_number x y z : canonical x -> canonical y ->
  (forall adds, left_by_sum half_gnu adds x y z -> wf z) /\
  (forall r, wf r -> left_by_result half_gnu x r z -> wf z) /\
  (Z.abs (val y) <= Z.abs (val x) -> left_by_division x y z -> wf z).
Proof.
  intros Cx Cy. splits.
  - intros adds. apply left_by_sum_wf, Cx.
  - intros r. apply left_by_result_wf. auto.
  - apply left_by_division_wf, Cx.
Qed.
Print Assumptions C124_number.

(** ** The strong guarantee is false of every one of them *)
Definition at_request (k n : nat) : bool := (n =? k)%nat.
Definition i (s : bool) (l : list Z) : Int := mkInt l s.
(* -5 += -3 leaves 5; 999999999 += 1 leaves 0; 3 -= 5 leaves -2; 3 -= 10^9 + 5 leaves 2 *)
Theorem C124_sum_refuted :
  add_assign_m (at_request 1) half_gnu (Some (i true [3])) (i true [5]) 0%nat = (i false [5], 2%nat, NoMem) /\
  add_assign_m (at_request 1) half_gnu (Some (i false [1])) (i false [999999999]) 0%nat = (i false [0], 2%nat, NoMem) /\
  sub_assign_m (at_request 3) half_gnu (Some (i false [5])) (i false [3]) 0%nat = (i true [2], 4%nat, NoMem) /\
  sub_assign_m (at_request 2) half_gnu (Some (i false [5; 1])) (i false [3]) 0%nat = (i false [2], 3%nat, NoMem).
Proof. vm_compute. repeat split. Qed.
Theorem C124_product_refuted :
  mul_assign_m (at_request 2) half_gnu (Some (i false [500000000])) (i false [6]) 0%nat = (i false [0], 3%nat, NoMem) /\
  mul_assign_m (at_request 3) half_gnu (Some (i false [500000000])) (i false [6]) 0%nat = (i false [0; 3], 4%nat, NoMem) /\
  mod_assign_m (at_request 3) half_gnu (Some (i false [4])) (i false [7]) 0%nat = (i false [3], 4%nat, NoMem) /\
  pow_assign_m (at_request 3) half_gnu (Some (i false [2])) (i true [7]) 0%nat = (i false [49], 4%nat, NoMem).
Proof. vm_compute. repeat split. Qed.
(* 1 /= 2 leaves no bins, and then even == 0 throws; (4*10^9 + 6) /= 2 leaves 2*10^9 + 6 *)
Theorem C124_quotient_refuted :
  div_assign_m (at_request 1) (Some (i false [2])) (i false [1]) 0%nat = (i false [], 2%nat, NoMem) /\
  equals_int32 (i false []) 0 = Throw OutOfRange /\
  div_assign_m (at_request 3) (Some (i false [2])) (i false [6; 4]) 0%nat = (i false [6; 2], 4%nat, NoMem).
Proof. vm_compute. repeat split. Qed.
(* without a failure *)
Example C124_example_sum : add_assign_m (fun _ => false) half_gnu (Some (i true [1])) (i true [999999999]) 0%nat = (i true [0; 1], 3%nat, Fin (Ok tt)).
Proof. vm_compute. reflexivity. Qed.
Example C124_example_quotient : div_assign_m (fun _ => false) (Some (i true [2])) (i false [6; 4]) 0%nat = (i true [3; 2], 8%nat, Fin (Ok tt)).
Proof. vm_compute. reflexivity. Qed.
(* the code's own assertion: 10^18 / 3 with memory *)
Example C124_example_abort : snd (div_assign_m (fun _ => false) (Some (i false [3])) (i false [0; 0; 1]) 0%nat) = Fin Abort.
Proof. vm_compute. reflexivity. Qed.
Example C124_example_zero : div_assign_m (fun _ => false) (Some (i false [0])) (i true [7]) 0%nat = (i true [7], 1%nat, Fin (Throw DivideByZero)).
Proof. vm_compute. reflexivity. Qed.
