(** Property theorems: C111, Vec and Mat of fractions when an element operator throws. *)
From Coq Require Import QArith.
From Verif Require Import Base IntModel IntSpec IntBasics FracModel FracSpec ElemModel VecModel MatModel ExtSpec ExtProofs PropsFrac LeaveModel LeaveSpec LeaveProofs.
Local Open Scope list_scope.
Local Open Scope nat_scope.

(** ** C111 *)
(** Vec<Frac>, every vector and operand: against VecModel only the element of the failing
    operator differs. *)
Theorem C111_same : forall x y a,
  same_but F_add_assign (vec_assign' F_add_assign x y) (V_add_assign Frac_ops x y) /\
  same_but F_sub_assign (vec_assign' F_sub_assign x y) (V_sub_assign Frac_ops x y) /\
  same_but F_mul_assign (scale_assign' F_mul_assign x a) (V_mul_assign Frac_ops x a) /\
  same_but F_div_assign (scale_assign' F_div_assign x a) (V_div_assign Frac_ops x a).
Proof. intros x y a. split; [exact (vec_same _ x y)|]. split; [exact (vec_same _ x y)|]. split; exact (scale_same _ x a). Qed.
(** Mat: an r x c matrix is worked through as the vector of its entries, row by row, for
    every element type; in LeaveModel and in MatModel. *)
Theorem C111_rows : forall T (op : lop T) (op' : T -> option T -> res T) r c l y s,
  length l = r * c -> (forall l', y = Some l' -> length l' = r * c) -> scalar_in c s ->
  mat_assign' op (mat r c l) (option_map (mat r c) y) = as_mat r c (vec_assign' op l y) /\
  mat_scale_assign' op (mat r c l) s = as_mat r c (scale_assign' op l (flat_scalar c s)) /\
  mat_assign op' (mat r c l) (option_map (mat r c) y) = as_mat r c (vec_assign op' l y) /\
  mat_scale_assign op' (mat r c l) s = as_mat r c (scale_assign op' l (flat_scalar c s)).
Proof.
  intros T op op' r c l y s L Ly Hs. split; [apply mat_assign_flat'; auto|]. split; [apply mat_scale_flat'; auto|].
  split; [apply mat_assign_flat; auto|apply mat_scale_flat; auto].
Qed.
(** Elements that are rationals, 1/0 or -1/0: x op= y. *)
Theorem C111_elementwise : forall x ex y ey, Forall2 is_ext x ex -> Forall2 is_ext (rd x y) ey -> length x = length (rd x y) ->
  works_through x (zip e_add ex ey) (vec_assign' F_add_assign x y) /\
  works_through x (zip (fun a b => e_add a (e_opp b)) ex ey) (vec_assign' F_sub_assign x y).
Proof.
  intros x ex y ey Hx Hy L. split.
  - apply (vec_through F_add_assign e_add); auto. intros; apply F_add_ext; auto.
  - apply (vec_through F_sub_assign (fun a b => e_add a (e_opp b))); auto. intros; apply F_sub_ext; auto.
Qed.
(** x op= a with a outside x, and x op= x[k]. *)
Theorem C111_scalar : forall x ex a ea, Forall2 is_ext x ex -> is_ext a ea ->
  works_through x (all_by e_mul ex ea) (scale_assign' F_mul_assign x (Val a)) /\
  works_through x (all_by e_div ex ea) (scale_assign' F_div_assign x (Val a)).
Proof.
  intros x ex a ea Hx Ha. split.
  - apply (val_through F_mul_assign e_mul); auto. intros; apply F_mul_ext; auto.
  - apply (val_through F_div_assign e_div); auto. intros; apply F_div_ext; auto.
Qed.
Theorem C111_own : forall x ex k ea, Forall2 is_ext x ex -> nth_error ex k = Some ea ->
  works_through x (by_own e_mul ex ea k) (scale_assign' F_mul_assign x (Elem k)) /\
  works_through x (by_own e_div ex ea k) (scale_assign' F_div_assign x (Elem k)).
Proof.
  intros x ex k ea Hx Hk. split.
  - apply (own_through F_mul_assign e_mul); auto. intros; apply F_mul_ext; auto.
  - apply (own_through F_div_assign e_div); auto. intros; apply F_div_ext; auto.
Qed.
(** Division of rationals by zero, or by an element that is zero. *)
Theorem C111_zero : forall x, Forall reduced x ->
  (forall z, reduced z -> (Fval z == 0)%Q -> over_zeros x (scale_assign' F_div_assign x (Val z))) /\
  (forall k g, nth_error x k = Some g -> (Fval g == 0)%Q -> over_zeros x (scale_assign' F_div_assign x (Elem k))).
Proof. intros x Rx. split; [intros z; apply val_zero; auto|intros k g; apply own_zero; auto]. Qed.
Definition C111_v : list Frac := [fr 3 4; fr (-1) 2; fr 0 1; fr 5 1].
(** v /= 0; v /= v[2]; without the zero; the model without the changed element. *)
Example C111_ex : scale_assign' F_div_assign C111_v (Val (fr 0 1)) = ([inf false; inf true; fr 0 0; fr 5 1], Throw DivideByZero) /\
  scale_assign' F_div_assign C111_v (Elem 2) = ([inf false; inf true; fr 0 0; fr 5 1], Throw DivideByZero) /\
  V_div_assign Frac_ops C111_v (Val (fr 0 1)) = ([inf false; inf true; fr 0 1; fr 5 1], Throw DivideByZero) /\
  scale_assign' F_div_assign [fr 3 4; fr (-1) 2] (Val (fr 0 1)) = ([inf false; inf true], Ok tt) /\
  scale_assign' F_div_assign C111_v (Elem 1) = ([fr (-3) 2; fr 1 1; fr 0 1; fr 5 1], Ok tt) /\
  scale_assign' F_mul_assign [inf true; fr 2 1; fr 0 1; fr 1 3] (Elem 0) = ([inf false; inf false; fr 0 0; fr 1 3], Throw DivideByZero) /\
  vec_assign' F_sub_assign [fr 1 2; inf false; fr 7 1] None = ([fr 0 1; fr 0 0; fr 7 1], Throw DivideByZero) /\
  vec_assign' F_add_assign [fr 1 2; inf false] (Some [inf true; fr (-1) 3]) = ([inf true; inf false], Ok tt) /\
  vec_assign' F_add_assign [fr 1 2] (Some []) = ([fr 1 2], Throw InvalidArgument).
Proof. vm_compute. splits; reflexivity. Qed.
Example C111_ex_mat : mat_scale_assign' F_div_assign (mat 2 2 C111_v) (MElem 1 0) = (mat 2 2 [inf false; inf true; fr 0 0; fr 5 1], Throw DivideByZero) /\
  mat_assign' F_add_assign (mat 1 2 [fr 1 2; inf true]) None = (mat 1 2 [fr 1 1; fr 0 0], Throw DivideByZero) /\
  mat_assign' F_add_assign (mat 1 2 [fr 1 2; inf true]) (Some (mat 2 1 [fr 1 2; fr 1 2])) = (mat 1 2 [fr 1 2; inf true], Throw DomainError).
Proof. vm_compute. splits; reflexivity. Qed.
Example C111_ex_spec : by_own e_mul [Inf true; Fin 2; Fin 0; Fin (1 # 3)] (Inf true) 0 = [Some (Inf false); Some (Inf false); None; Some (Inf false)] /\
  zip e_add [Fin (1 # 2); Inf false] [Inf true; Inf false] = [Some (Inf true); None] /\
  all_by e_div [Fin (3 # 4); Fin 0] (Fin 0) = [Some (Inf false); None].
Proof. vm_compute. splits; reflexivity. Qed.
Print Assumptions C111_same.
Print Assumptions C111_rows.
Print Assumptions C111_elementwise.
Print Assumptions C111_scalar.
Print Assumptions C111_own.
Print Assumptions C111_zero.
