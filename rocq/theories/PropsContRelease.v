(** Property theorems about Vec and Mat of Int and of Frac compiled without assertions
    (CMAKE_BUILD_TYPE=Release): C128. [canonical x]: x is in the normal form of Int;
    [ext_frac f]: f is a number in lowest terms or an infinity. *)
From Coq Require Import Lia.
From Verif Require Import Base IntModel IntSpec IntBasics IntDiv IntMod FracModel FracSpec ElemModel ElemSpec VecModel MatModel LeaveModel LeaveSpec LeaveProofs SimSpec SimProofs
  ReleaseModel ReleaseSpec ReleaseProofs ReleaseProofs2 PropsRelease FracReleaseModel ContReleaseModel ContReleaseSpec ContReleaseProofs ContReleaseInst ContReleaseMore.
Local Open Scope list_scope.
Local Open Scope Z_scope.

Local Notation int f := (released_run Int_ops Int_ops_nd f).
Local Notation frac f := (released_run Frac_ops Frac_ops_nd f).

(** ** C128 *)
(** Every operation on vectors of Int: the same results and exceptions, and
    std::out_of_range where an assertion fails otherwise. [o = None]: x += x;
    [s = Elem k]: x *= x[k]. *)
Theorem C128_vec : forall x y z o a s, Forall canonical x -> Forall canonical y -> Forall canonical z -> opt_all (Forall canonical) o -> canonical a -> own_or canonical s ->
  int (fun E => V_add E x y) /\ int (fun E => V_sub E x y) /\
  int (fun E => final (V_add_assign E x o)) /\ int (fun E => final (V_sub_assign E x o)) /\
  int (fun E => V_scale E a x) /\ int (fun E => V_mul E x a) /\ int (fun E => V_div E x a) /\
  int (fun E => final (V_mul_assign E x s)) /\ int (fun E => final (V_div_assign E x s)) /\
  int (fun E => dot E x y) /\ int (fun E => cross E x y) /\
  int (fun E => scalar_triple_product E x y z) /\ int (fun E => vector_triple_product E x y z) /\
  int (fun E => V_eq E x y) /\ int (fun E => V_ne E x y).
Proof. intros x y z o a s. exact (vec_runs canonical wf Int_ops Int_ops_nd int_ring_alike int_div_alike int_prod_alike mulA_alike x y z o a s). Qed.
(** Matrices of Int *)
Theorem C128_mat : forall x y o a s, entries canonical x -> entries canonical y -> opt_all (entries canonical) o -> canonical a -> mown_or canonical s ->
  int (fun E => M_add E x y) /\ int (fun E => M_sub E x y) /\
  int (fun E => final (M_add_assign E x o)) /\ int (fun E => final (M_sub_assign E x o)) /\
  int (fun E => M_scale E a x) /\ int (fun E => M_scale_r E x a) /\ int (fun E => M_div E x a) /\
  int (fun E => final (M_mul_assign E x s)) /\ int (fun E => final (M_div_assign E x s)) /\
  int (fun E => M_product E x y) /\ int (fun E => final (M_product_assign E x o)) /\
  int (fun E => M_eq E x y) /\ int (fun E => M_ne E x y) /\ int (fun E => trace E x).
Proof. intros x y o a s. exact (mat_runs canonical wf Int_ops Int_ops_nd int_ring_alike int_div_alike int_prod_alike mulA_alike x y o a s). Qed.
Theorem C128_elimination : forall x i j, entries canonical x ->
  int (fun E => M_neg E x) /\ int (fun E => first_minor E x i j) /\ int (fun E => cofactor E x i j) /\
  int (fun E => row_cofactor_expansion E x) /\ int (fun E => col_cofactor_expansion E x) /\
  int (fun E => determinant E x) /\ int (fun E => final (inplace_rref E x)) /\ int (fun E => rref E x) /\ int (fun E => inverse E x).
Proof. intros x i j. exact (elim_runs canonical wf Int_ops Int_ops_nd int_ring_alike int_div_alike int_prod_alike x i j). Qed.

(** Vectors and matrices of Frac *)
Lemma frac_prod_alike : prod_alike (same ext_frac) (same ext_frac) Frac_ops Frac_ops_nd.
Proof.
  split; auto; [|apply (al_div _ _ _ frac_div_alike)]. intros x y x' y' [-> Hx] [-> Hy]. apply frac_mulA_alike; cbn; auto.
Qed.
Theorem C128_vec_frac : forall x y z o a s, Forall ext_frac x -> Forall ext_frac y -> Forall ext_frac z -> opt_all (Forall ext_frac) o -> ext_frac a -> own_or ext_frac s ->
  frac (fun E => V_add E x y) /\ frac (fun E => V_sub E x y) /\
  frac (fun E => final (V_add_assign E x o)) /\ frac (fun E => final (V_sub_assign E x o)) /\
  frac (fun E => V_scale E a x) /\ frac (fun E => V_mul E x a) /\ frac (fun E => V_div E x a) /\
  frac (fun E => final (V_mul_assign E x s)) /\ frac (fun E => final (V_div_assign E x s)) /\
  frac (fun E => dot E x y) /\ frac (fun E => cross E x y) /\
  frac (fun E => scalar_triple_product E x y z) /\ frac (fun E => vector_triple_product E x y z) /\
  frac (fun E => V_eq E x y) /\ frac (fun E => V_ne E x y).
Proof. intros x y z o a s. exact (vec_runs ext_frac ext_frac Frac_ops Frac_ops_nd frac_ring_alike frac_div_alike frac_prod_alike frac_mulA_alike x y z o a s). Qed.
Theorem C128_mat_frac : forall x y o a s, entries ext_frac x -> entries ext_frac y -> opt_all (entries ext_frac) o -> ext_frac a -> mown_or ext_frac s ->
  frac (fun E => M_add E x y) /\ frac (fun E => M_sub E x y) /\
  frac (fun E => final (M_add_assign E x o)) /\ frac (fun E => final (M_sub_assign E x o)) /\
  frac (fun E => M_scale E a x) /\ frac (fun E => M_scale_r E x a) /\ frac (fun E => M_div E x a) /\
  frac (fun E => final (M_mul_assign E x s)) /\ frac (fun E => final (M_div_assign E x s)) /\
  frac (fun E => M_product E x y) /\ frac (fun E => final (M_product_assign E x o)) /\
  frac (fun E => M_eq E x y) /\ frac (fun E => M_ne E x y) /\ frac (fun E => trace E x).
Proof. intros x y o a s. exact (mat_runs ext_frac ext_frac Frac_ops Frac_ops_nd frac_ring_alike frac_div_alike frac_prod_alike frac_mulA_alike x y o a s). Qed.

(** Whatever the entries are, a result with assertions is the result without them. *)
Theorem C128_same : forall (m : Mat Int) (x y : list Int) d,
  (determinant Int_ops m = Ok d -> determinant Int_ops_nd m = Ok d) /\ (trace Int_ops m = Ok d -> trace Int_ops_nd m = Ok d) /\
  (row_cofactor_expansion Int_ops m = Ok d -> row_cofactor_expansion Int_ops_nd m = Ok d) /\
  (col_cofactor_expansion Int_ops m = Ok d -> col_cofactor_expansion Int_ops_nd m = Ok d) /\
  (dot Int_ops x y = Ok d -> dot Int_ops_nd x y = Ok d) /\
  (forall r, inverse Int_ops m = Ok r -> exists r', inverse Int_ops_nd m = Ok r' /\ mat_sim eq r r') /\
  (forall r, rref Int_ops m = Ok r -> exists r', rref Int_ops_nd m = Ok r' /\ mat_sim eq r r').
Proof.
  intros m x y d.
  assert (Hm : mat_sim eq m m). { split; [|split]; auto. induction (data m) as [|[a|] l IH]; constructor; cbn; auto. }
  assert (Hv : forall v : list Int, vec_sim eq v v) by (intros v; induction v; constructor; auto).
  assert (F : forall (m m' : res Int), sim never eq m m' -> m = Ok d -> m' = Ok d).
  { intros u w G E. destruct (G d E) as [(b & Eb & <-)|(h & [] & _)]. exact Eb. }
  assert (F' : forall (u w : res (Mat Int)) r, sim never (mat_sim eq) u w -> u = Ok r -> exists r', w = Ok r' /\ mat_sim eq r r').
  { intros u w r G E. destruct (G r E) as [(b & Eb & H)|(h & [] & _)]. eauto. }
  repeat match goal with |- _ /\ _ => split end; try apply F; try (intros r; apply F').
  - eapply determinant_sim; eauto using int_ring_keeps, int_div_keeps, int_prod_keeps.
  - eapply trace_sim; eauto using int_ring_keeps.
  - eapply row_cofactor_expansion_sim; eauto using int_ring_keeps.
  - eapply col_cofactor_expansion_sim; eauto using int_ring_keeps.
  - eapply dot_sim; eauto using int_ring_keeps.
  - eapply inverse_sim; eauto using int_ring_keeps, int_div_keeps, int_prod_keeps.
  - eapply rref_sim; eauto using int_ring_keeps, int_div_keeps, int_prod_keeps.
Qed.

(** What x /= a leaves behind. The loop with the element left by operator/= ends as the one
    above does and differs from it in one element at most; *)
Theorem C128_loop : forall x s, same_but div_assign_nd (scale_assign' div_assign_nd x s) (V_div_assign Int_ops_nd x s).
Proof. intros x s. exact (scale_same div_assign_nd x s). Qed.
(** ... it divides every element, or divides those before the first z that cannot be
    divided, leaves the low digits of z there, and the rest as it was. *)
Theorem C128_left : forall x a, Forall canonical x -> canonical a -> val a <> 0 ->
  let quotient u q := canonical q /\ val q = Z.quot (val u) (val a) in
  let p := scale_assign' div_assign_nd x (Val a) in
  (Forall (fun u => div_safe (Z.abs (val u)) (Z.abs (val a))) x /\ snd p = Ok tt /\ Forall2 quotient x (fst p)) \/
  (exists b z r out l, x = b ++ z :: r /\ Forall (fun u => div_safe (Z.abs (val u)) (Z.abs (val a))) b /\ ~ div_safe (Z.abs (val z)) (Z.abs (val a)) /\
     p = (out ++ l :: r, Throw OutOfRange) /\ Forall2 quotient b out /\
     left_of (Z.abs (val z)) (Z.abs (val a)) (Z.abs (val l)) /\ negative l = negative z /\ Z.abs (val l) < Z.abs (val z)).
Proof.
  intros x a Hx Ca Na quotient p. 
  assert (D : forall u, canonical u -> (div_safe (Z.abs (val u)) (Z.abs (val a)) /\ exists q, div_assign_nd u (Some a) = (q, Ok tt) /\ quotient u q) \/
    (~ div_safe (Z.abs (val u)) (Z.abs (val a)) /\ exists l, div_assign_nd u (Some a) = (l, Throw OutOfRange) /\
       left_of (Z.abs (val u)) (Z.abs (val a)) (Z.abs (val l)) /\ negative l = negative u /\ Z.abs (val l) < Z.abs (val u))).
  { intros u Cu. destruct (div_safe_dec (Z.abs (val u)) (Z.abs (val a))) as [S|S]; [lia| |].
    - left. split; auto. destruct (divide_safe u a) as (q & E & C & V); auto. exists q. split; [apply divide_keeps, E|]. split; auto.
    - right. split; auto. destruct (C120_left u a Cu Ca Na S) as (l & E & _ & _ & N & L & B). exists l. auto. }
  assert (G : forall b out, Forall canonical b -> Forall2 (fun x y => div_assign_nd x (Some a) = (y, Ok tt)) b out ->
    Forall (fun u => div_safe (Z.abs (val u)) (Z.abs (val a))) b /\ Forall2 quotient b out).
  { intros b out Cb F. induction F as [|u q b out E F IH]; [split; constructor|]. inversion Cb as [|? ? Cu Cb']. subst. destruct (IH Cb') as [I1 I2].
    destruct (D u Cu) as [(S & q' & E' & Q)|(_ & l & E' & _)]; [|congruence]. assert (q' = q) by congruence. subst q'. split; constructor; auto. }
  destruct p as [c e] eqn:Ep. unfold p, scale_assign' in Ep.
  destruct (worked div_assign_nd a [] x c e Ep) as [(-> & out & -> & F)|(b & z & r & out & -> & F & Ez & Ne & ->)].
  - left. destruct (G _ _ Hx F). cbn [app fst snd]. auto.
  - right. apply Forall_app in Hx as [Hb Hz]. inversion Hz as [|? ? Cz Hr]. subst. destruct (G _ _ Hb F) as [Sb Qb].
    destruct (D z Cz) as [(_ & q & E' & _)|(S & l & E' & L1 & L2 & L3)]; [rewrite E' in Ne; contradiction|].
    exists b, z, r, out, l. rewrite E'. cbn [app fst snd]. auto 10.
Qed.
(** x /= 0 throws divide_by_zero_error at the first element and changes nothing. *)
Theorem C128_zero : forall x a, Forall canonical x -> canonical a -> val a = 0 ->
  scale_assign' div_assign_nd x (Val a) = (x, match x with [] => Ok tt | _ => Throw DivideByZero end).
Proof.
  intros x a Hx Ca Za. destruct Hx as [|u r Cu Hr]; [reflexivity|]. unfold scale_assign'. cbn [length for_]. unfold assign_at' at 1. cbn [get_at nth_error eval].
  assert (E : div_assign_nd u (Some a) = (u, Throw DivideByZero)).
  { unfold div_assign_nd, divide_nd. cbn [rd]. rewrite equals_int32_0 by auto. pose proof (abs_val a ltac:(auto)). replace (aval a =? 0) with true by lia. reflexivity. }
  rewrite E. reflexivity.
Qed.
(** A matrix is worked through as the vector of its entries, row by row. *)
Theorem C128_rows : forall r c l s, length l = (r * c)%nat -> scalar_in c s ->
  mat_scale_assign' div_assign_nd (mat r c l) s = as_mat r c (scale_assign' div_assign_nd l (flat_scalar c s)).
Proof. intros r c l s. exact (mat_scale_flat' div_assign_nd r c l s). Qed.

(** Examples: -(10^18 + 5) / 7 stops at its digit 5 *)
Local Notation i := int_const.
Local Notation fr a b := (mkFrac (i a) (i b)).
Local Notation big := (mkInt [5; 0; 1] true).
Example C128_ex : V_div Int_ops [i 14; big; i 9] (i 7) = Abort /\ V_div Int_ops_nd [i 14; big; i 9] (i 7) = Throw OutOfRange /\
  V_div_assign Int_ops [i 14; big; i 9] (Elem 2) = ([i 1; big; i 9], Abort) /\
  scale_assign' div_assign_nd [i 14; i (-20); big; i 9] (Val (i 7)) = ([i 2; i (-2); i (-5); i 9], Throw OutOfRange) /\
  scale_assign' div_assign_nd [i 14; i (-20); i 9] (Val (i 7)) = ([i 2; i (-2); i 1], Ok tt) /\
  scale_assign' div_assign_nd [i 14; big] (Val (i 0)) = ([i 14; big], Throw DivideByZero) /\
  V_mul Int_ops_nd [i 14; big] (i 2) = Ok [i 28; mkInt [10; 0; 2] true].
Proof. vm_compute. repeat split. Qed.
(** The determinant of an integer matrix may stop at the division by a pivot, and so may rref. *)
Example C128_ex_mat : 
  determinant Int_ops (mat 3 3 [i 20; i (10 ^ 9); i 0; i (10 ^ 9); i 1; i 0; i 0; i 0; i 1]) = Abort /\
  determinant Int_ops_nd (mat 3 3 [i 20; i (10 ^ 9); i 0; i (10 ^ 9); i 1; i 0; i 0; i 0; i 1]) = Throw OutOfRange /\
  determinant Int_ops_nd (mat 3 3 [i 2; i 1; i 0; i 5; i 1; i 3; i 1; i 0; i 3]) = Ok (i (-6)) /\
  rref Int_ops (mat 1 2 [i 7; big]) = Abort /\ rref Int_ops_nd (mat 1 2 [i 7; big]) = Throw OutOfRange /\
  trace Int_ops_nd (mat 2 2 [i 7; big; i 0; i (-5)]) = Ok (i 2) /\ inverse Int_ops_nd (mat 2 3 (repeat (i 1) 6)) = Throw DomainError /\
  mat_scale_assign' div_assign_nd (mat 2 2 [i 14; big; i 9; i 21]) (MVal (i 7)) = (mat 2 2 [i 2; i (-5); i 9; i 21], Throw OutOfRange).
Proof. vm_compute. repeat split. Qed.
(** Frac: the numerator 7 and the denominator 10^18 + 5 have a common divisor 1 that the
    Euclidean algorithm does not reach. *)
Example C128_ex_frac : dot Frac_ops [fr 1 2; fr 1 1] [fr 1 3; fr 7 (10 ^ 18 + 5)] = Abort /\
  dot Frac_ops_nd [fr 1 2; fr 1 1] [fr 1 3; fr 7 (10 ^ 18 + 5)] = Throw OutOfRange /\
  dot Frac_ops_nd [fr 1 2; fr 1 1] [fr 1 3; fr (-2) 1] = Ok (fr (-11) 6) /\
  cross Frac_ops_nd [fr 1 2; fr 1 1] [fr 1 3; fr (-2) 1] = Throw InvalidArgument.
Proof. vm_compute. repeat split. Qed.
(** The condition on the entries: 0 *= 10^9 leaves a zero in front, after which a subtraction
    aborts with assertions and is exact without them. *)
Example C128_ex_redundant : mul_assign (i 0) (Some (i (10 ^ 9))) = Ok (mkInt [0; 0] false) /\
  V_sub Int_ops [i (10 ^ 9)] [mkInt [0; 0] false] = Abort /\ V_sub Int_ops_nd [i (10 ^ 9)] [mkInt [0; 0] false] = Ok [i (10 ^ 9)].
Proof. vm_compute. repeat split. Qed.
Example C128_ex_use : V_div Int_ops_nd [i 14; big; i 9] (i 7) = Throw OutOfRange.
Proof.
  assert (C : Forall canonical [i 14; big; i 9]) by (repeat constructor; cbn; try lia; try discriminate).
  assert (C7 : canonical (i 7)) by (repeat constructor; cbn; try lia; try discriminate).
  destruct (C128_vec [i 14; big; i 9] [] [] None (i 7) (Val (i 7)) C (Forall_nil _) (Forall_nil _) I C7 C7) as (_ & _ & _ & _ & _ & _ & H & _).
  unfold released_run in H. rewrite H. vm_compute. reflexivity.
Qed.

Print Assumptions C128_vec.
Print Assumptions C128_mat.
Print Assumptions C128_elimination.
Print Assumptions C128_vec_frac.
Print Assumptions C128_mat_frac.
Print Assumptions C128_same.
Print Assumptions C128_loop.
Print Assumptions C128_left.
Print Assumptions C128_zero.
Print Assumptions C128_rows.
