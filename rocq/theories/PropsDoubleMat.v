(** Property theorems about rounding in Vec<double> and Mat<double>, and the laws that survive
    it: C90, C91. *)
From Coq Require Import Reals SpecFloat Lra.
From Verif Require Import Base IntModel IntBasics FracModel FracSpec CommonModel CommonSpec ElemModel ElemSpec VecModel MatModel MatSpec DoubleModel DoubleSpec
  DoubleMat DoubleLaws.
Local Open Scope Z_scope.

(** doubles for the examples *)
Local Notation D m e := (S754_finite false m e).
Local Notation tenth := (D 7205759403792794 (-56)).
Local Notation int := double_of_int.
Local Notation mat r c l := (mkMat r c (map Some l)).

(** ** C90: every element is the correctly rounded result; sums are close *)
Local Open Scope R_scope.
Theorem C90_vec : forall x y a n v w s, seq_of R_double x n v -> seq_of R_double y n w -> R_double a s ->
  (exists z, V_add double_ops x y = Ok z /\ seq_of rounded z n (fun i => v i + w i)) /\
  (exists z, V_sub double_ops x y = Ok z /\ seq_of rounded z n (fun i => v i - w i)) /\
  (exists z, V_mul double_ops x a = Ok z /\ seq_of rounded z n (fun i => v i * s)) /\
  (s <> 0 -> exists z, V_div double_ops x a = Ok z /\ seq_of rounded z n (fun i => v i / s)).
Proof. exact vec_rounded. Qed.
(** in place; with None the right operand is the left one *)
Theorem C90_vec_assign : forall x y a n v w s, seq_of R_double x n v ->
  match y with None => forall i, (i < n)%nat -> w i = v i | Some y => seq_of R_double y n w end -> R_double a s ->
  (exists z, V_add_assign double_ops x y = (z, Ok tt) /\ seq_of rounded z n (fun i => v i + w i)) /\
  (exists z, V_sub_assign double_ops x y = (z, Ok tt) /\ seq_of rounded z n (fun i => v i - w i)) /\
  (exists z, V_mul_assign double_ops x (Val a) = (z, Ok tt) /\ seq_of rounded z n (fun i => v i * s)) /\
  (s <> 0 -> exists z, V_div_assign double_ops x (Val a) = (z, Ok tt) /\ seq_of rounded z n (fun i => v i / s)).
Proof. exact vec_rounded_assign. Qed.
Theorem C90_mat : forall x y a r c g h s, mat_of R_double x r c g -> mat_of R_double y r c h -> R_double a s ->
  (exists z, M_add double_ops x y = Ok z /\ mat_of rounded z r c (fun i j => g i j + h i j)) /\
  (exists z, M_sub double_ops x y = Ok z /\ mat_of rounded z r c (fun i j => g i j - h i j)) /\
  (exists z, M_neg double_ops x = Ok z /\ mat_of R_double z r c (fun i j => - g i j)) /\
  (exists z, M_scale double_ops a x = Ok z /\ mat_of rounded z r c (fun i j => s * g i j)) /\
  (s <> 0 -> exists z, M_div double_ops x a = Ok z /\ mat_of rounded z r c (fun i j => g i j / s)).
Proof. exact mat_rounded. Qed.
Theorem C90_mat_assign : forall x y a r c g h s, mat_of R_double x r c g ->
  match y with None => forall i j, (i < r)%nat -> (j < c)%nat -> h i j = g i j | Some y => mat_of R_double y r c h end -> R_double a s ->
  (exists z, M_add_assign double_ops x y = (z, Ok tt) /\ mat_of rounded z r c (fun i j => g i j + h i j)) /\
  (exists z, M_sub_assign double_ops x y = (z, Ok tt) /\ mat_of rounded z r c (fun i j => g i j - h i j)) /\
  (exists z, M_mul_assign double_ops x (MVal a) = (z, Ok tt) /\ mat_of rounded z r c (fun i j => g i j * s)) /\
  (s <> 0 -> exists z, M_div_assign double_ops x (MVal a) = (z, Ok tt) /\ mat_of rounded z r c (fun i j => g i j / s)).
Proof. exact mat_rounded_assign. Qed.
(** sums of products: the error is relative to the sum of the absolute values *)
Theorem C90_product : forall x y n m p g h, mat_of R_double x n m g -> mat_of R_double y m p h -> exists z, M_product double_ops x y = Ok z /\
  mat_of (dot_close m) z n p (fun i j => (Rsum m (fun k => g i k * h k j), Rsum m (fun k => Rabs (g i k * h k j)))).
Proof. exact product_close. Qed.
Theorem C90_trace : forall x n g, mat_of R_double x n n g -> exists d, trace double_ops x = Ok d /\ double d /\
  (finite d -> Rabs (dR d - Rsum n (fun i => g i i)) <= ((1 + unit_roundoff) ^ (n - 1) - 1) * Rsum n (fun i => Rabs (g i i))) /\
  ((1 + unit_roundoff) ^ (n - 1) * Rsum n (fun i => Rabs (g i i)) <= largest -> finite d).
Proof. exact trace_close. Qed.
Theorem C90_cross : forall x y v w, seq_of R_double x 3 v -> seq_of R_double y 3 w -> exists z, cross double_ops x y = Ok z /\
  seq_of minor_close z 3 (fun i => (cross_at Rminus Rmult v w i, cross_at (fun a b => Rabs a + Rabs b) Rmult v w i)).
Proof. exact cross_close. Qed.
Local Open Scope Z_scope.
(** 0.1 + 0.3, and the two sides of the overflow threshold *)
Example C90_ex :
  M_add double_ops (mat 1 2 [tenth; D 9007199254740991 971])%nat (mat 1 2 [D 5404319552844595 (-54); D 4503599627370496 918])%nat =
    Ok (mat 1 2 [D 7205759403792794 (-54); S754_infinity false])%nat /\
  V_add double_ops [D 9007199254740991 971] [D 9007199254740991 917] = Ok [D 9007199254740991 971] /\
  M_div double_ops (mat 1 3 [int 1; int 2; int 0])%nat (int 3) = Ok (mat 1 3 [D 6004799503160661 (-54); D 6004799503160661 (-53); S754_zero false])%nat /\
  M_product double_ops (mat 1 2 [tenth; D 5404319552844595 (-54)])%nat (mat 2 1 [int 1; int 1])%nat = Ok (mat 1 1 [D 7205759403792794 (-54)])%nat /\
  trace double_ops (mat 3 3 [tenth; int 1; int 1; int 1; tenth; int 1; int 1; int 1; tenth])%nat = Ok (D 5404319552844596 (-54)).
Proof. vm_compute. auto 10. Qed.
(** a tie goes to the even significand: 2^53 + 1 and 2^53 + 3; the smallest doubles *)
Example C90_ties_ex : V_add double_ops [D 4503599627370496 1; D 4503599627370497 1] [int 1; int 1] = Ok [D 4503599627370496 1; D 4503599627370498 1] /\
  V_mul double_ops [D 1 (-1074); D 3 (-1074)] (D 1 (-1)) = Ok [S754_zero false; D 2 (-1074)].
Proof. vm_compute. auto. Qed.
Print Assumptions C90_vec.
Print Assumptions C90_vec_assign.
Print Assumptions C90_mat.
Print Assumptions C90_mat_assign.
Print Assumptions C90_product.
Print Assumptions C90_trace.
Print Assumptions C90_cross.

(** ** C91: which laws of arithmetic hold bit for bit *)
Theorem C91_commute : forall x y, V_add double_ops x y = V_add double_ops y x /\ dot double_ops x y = dot double_ops y x.
Proof. intros x y. split; [apply V_add_comm|apply dot_comm]. Qed.
Theorem C91_mat_commute : forall x y r c, filled x r c -> filled y r c -> M_add double_ops x y = M_add double_ops y x.
Proof. exact M_add_comm. Qed.
(** the transpose of a product is the product of the transposes *)
Theorem C91_transpose : forall x y n m p, filled x n m -> filled y m p ->
  (z <- M_product double_ops x y ;; transpose double_ops z) = (a <- transpose double_ops y ;; b <- transpose double_ops x ;; M_product double_ops a b).
Proof. exact product_transpose. Qed.
(** a - b == -(b - a) for finite entries *)
Theorem C91_opposite : forall x y r c g h, mat_of R_double x r c g -> mat_of R_double y r c h -> exists d e f,
  M_sub double_ops x y = Ok d /\ M_sub double_ops y x = Ok e /\ M_neg double_ops e = Ok f /\ M_eq double_ops d f = Ok true.
Proof. exact M_sub_swap. Qed.
(** x cross x vanishes unless a product of two elements overflows *)
Theorem C91_cross_self : forall x, length x = 3%nat -> Forall double x ->
  let p i j := SFmul 53 1024 (nth i x S754_nan) (nth j x S754_nan) in finite (p 0%nat 1%nat) -> finite (p 1%nat 2%nat) -> finite (p 2%nat 0%nat) ->
  cross double_ops x x = Ok [S754_zero false; S754_zero false; S754_zero false].
Proof. exact cross_self. Qed.
(** x == x exactly when there is no NaN *)
Theorem C91_equal_self : (forall x, exists b, V_eq double_ops x x = Ok b /\ (b = true <-> ~ In S754_nan x)) /\
  (forall x r c, filled x r c -> exists b, M_eq double_ops x x = Ok b /\ (b = true <-> ~ In (Some S754_nan) (data x))).
Proof. exact (conj V_eq_self M_eq_self). Qed.
(** Addition and the matrix product are not associative, and trace(ab) need not be trace(ba) *)
Theorem C91_add_refuted : exists x y z, (s <- V_add double_ops x y ;; V_add double_ops s z) <> (t <- V_add double_ops y z ;; V_add double_ops x t).
Proof. exists [D 4503599627370496 1], [int 1], [int 1]. vm_compute. discriminate. Qed.
Theorem C91_product_refuted : exists x y z, filled x 1 1 /\ filled y 1 2 /\ filled z 2 1 /\
  (s <- M_product double_ops x y ;; M_product double_ops s z) <> (t <- M_product double_ops y z ;; M_product double_ops x t).
Proof.
  exists (mat 1 1 [int 3])%nat, (mat 1 2 [D 4503599627370496 1; int 1])%nat, (mat 2 1 [int 1; int 1])%nat. splits; [| | |vm_compute; discriminate]; apply filled_list; reflexivity.
Qed.
Theorem C91_trace_refuted : exists x y, filled x 2 2 /\ filled y 2 2 /\
  (s <- M_product double_ops x y ;; trace double_ops s) <> (t <- M_product double_ops y x ;; trace double_ops t).
Proof.
  exists (mat 2 2 [D 4503599627370496 1; int 1; int 0; int 1])%nat, (mat 2 2 [int 1; int 0; int 1; int 1])%nat. splits; [| |vm_compute; discriminate]; apply filled_list; reflexivity.
Qed.
(** nor is x orthogonal to x cross y *)
Theorem C91_orthogonal_refuted : exists x y d, Forall double x /\ Forall double y /\ (c <- cross double_ops x y ;; dot double_ops c x) = Ok d /\ finite d /\ SFeqb d (S754_zero false) = false.
Proof.
  exists [tenth; D 5404319552844595 (-54); int 1], [int 3; int 7; tenth], (D 4503599627370496 (-105)). splits; try (repeat constructor); vm_compute; reflexivity.
Qed.
Example C91_ex : cross double_ops [D 4503599627370496 500; D 4503599627370496 500; int 1] [D 4503599627370496 500; D 4503599627370496 500; int 1] =
    Ok [S754_zero false; S754_zero false; S754_nan] /\
  cross double_ops [tenth; int 3; int 7] [tenth; int 3; int 7] = Ok [S754_zero false; S754_zero false; S754_zero false] /\
  V_eq double_ops [S754_zero true; tenth] [S754_zero false; tenth] = Ok true /\ V_eq double_ops [S754_nan] [S754_nan] = Ok false /\
  M_sub double_ops (mat 1 1 [tenth])%nat (mat 1 1 [tenth])%nat = Ok (mat 1 1 [S754_zero false])%nat.
Proof. vm_compute. auto 10. Qed.
Print Assumptions C91_commute.
Print Assumptions C91_mat_commute.
Print Assumptions C91_transpose.
Print Assumptions C91_opposite.
Print Assumptions C91_cross_self.
Print Assumptions C91_equal_self.
Print Assumptions C91_add_refuted.
Print Assumptions C91_product_refuted.
Print Assumptions C91_trace_refuted.
Print Assumptions C91_orthogonal_refuted.
