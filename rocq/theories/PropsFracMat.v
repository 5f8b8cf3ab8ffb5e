(** Property theorems: Vec<Frac> and Mat<Frac>, and division of vectors and matrices by zero, C94 and C95. *)
From Coq Require Import QArith Lia.
From Verif Require Import Base IntModel IntSpec IntBasics IntDiv FracModel FracSpec FracProofs ElemModel ElemSpec ElemProofs ElemInst VecModel VecProofs
  MatModel MatSpec MatProofs SimSpec SimProofs SimInst FracSmall.
From Verif Require IntScale PropsInt PropsFrac PropsVec PropsMat.
Local Open Scope nat_scope.

Definition I (k : Z) : Int := PropsFrac.i k.
Definition F (t b : Z) : Frac := PropsFrac.fr t b.
Definition MF (r c : nat) (l : list (Z * Z)) : Mat Frac := mkMat r c (map (fun p => Some (F (fst p) (snd p))) l).
Definition Qsum (n : nat) (g : nat -> Q) : Q := sum_to (inject_Z 0) Qplus n g.

Lemma Frac_div_exact x y a b : R_frac x a -> nonzero R_frac (fun q => q == 0)%Q y b -> ret may_abort (div Frac_ops x y) (fun z => R_frac z (a / b)%Q).
Proof.
  intros [Rx Va] [[Ry Vb] N]. pose proof (Fval_ratio x Rx); pose proof (Fval_ratio y Ry). pose proof (top_nonzero y b Vb N).
  eapply makes_ret; [apply F_div_makes; apply parts_reduced; auto|nia|]. rewrite <- Va, <- Vb. apply ratio_div; auto.
Qed.

(** ** C94: every function that exists for fractions returns the exact result or aborts *)
Theorem C94_mat : forall x y r c g h, mat_of R_frac x r c g -> mat_of R_frac y r c h ->
  ret may_abort (M_add Frac_ops x y) (fun d => mat_of R_frac d r c (fun i j => g i j + h i j)%Q) /\
  ret may_abort (M_sub Frac_ops x y) (fun d => mat_of R_frac d r c (fun i j => g i j - h i j)%Q) /\
  sret may_abort (M_add_assign Frac_ops x (Some y)) (fun d => mat_of R_frac d r c (fun i j => g i j + h i j)%Q) /\
  sret may_abort (M_sub_assign Frac_ops x (Some y)) (fun d => mat_of R_frac d r c (fun i j => g i j - h i j)%Q) /\
  sret may_abort (M_add_assign Frac_ops x None) (fun d => mat_of R_frac d r c (fun i j => g i j + g i j)%Q) /\
  sret may_abort (M_sub_assign Frac_ops x None) (fun d => mat_of R_frac d r c (fun i j => g i j - g i j)%Q) /\
  (forall a q, R_frac a q -> ret may_abort (M_scale Frac_ops a x) (fun d => mat_of R_frac d r c (fun i j => q * g i j)%Q) /\
     sret may_abort (M_mul_assign Frac_ops x (MVal a)) (fun d => mat_of R_frac d r c (fun i j => g i j * q)%Q)) /\
  (forall a q, R_frac a q -> ~ (q == 0)%Q -> ret may_abort (M_div Frac_ops x a) (fun d => mat_of R_frac d r c (fun i j => g i j / q)%Q) /\
     sret may_abort (M_div_assign Frac_ops x (MVal a)) (fun d => mat_of R_frac d r c (fun i j => g i j / q)%Q)) /\
  ret never (transpose Frac_ops x) (fun d => mat_of R_frac d c r (fun i j => g j i)).
Proof.
  intros x y r c g h Hx Hy.
  destruct (PropsMat.C48_add _ _ Frac_ops may_abort R_frac R_frac _ Frac_add_exact Frac_addA_exact x y _ _ _ _ _ _ Hx Hy) as (_ & A1 & A2).
  destruct (PropsMat.C48_sub _ _ Frac_ops may_abort R_frac R_frac _ Frac_sub_exact Frac_subA_exact x y _ _ _ _ _ _ Hx Hy) as (_ & S1 & S2).
  destruct (A1 eq_refl) as [A3 A4]. destruct (S1 eq_refl) as [S3 S4]. splits; auto.
  - intros a q Ha. destruct (PropsMat.C48_scale _ _ Frac_ops may_abort R_frac R_frac R_frac _ Frac_mul_exact Frac_mulA_exact x a r c g q Hx) as [H1 H2].
    split; [apply H1, Ha|apply H2, Ha].
  - intros a q Ha N. apply (PropsMat.C48_divide _ _ Frac_ops may_abort R_frac _ R_frac _ Frac_div_exact Frac_divA_exact x a r c g q Hx (conj Ha N)).
  - apply (PropsMat.C48_transpose _ _ Frac_ops never R_frac x r c g Hx).
Qed.
Theorem C94_product : forall x y n m p g h, mat_of R_frac x n m g -> mat_of R_frac y m p h ->
  ret may_abort (M_product Frac_ops x y) (fun d => mat_of R_frac d n p (fun i j => Qsum m (fun k => g i k * h k j)%Q)) /\
  sret may_abort (M_product_assign Frac_ops x (Some y)) (fun d => mat_of R_frac d n p (fun i j => Qsum m (fun k => g i k * h k j)%Q)) /\
  (n = m -> sret may_abort (M_product_assign Frac_ops x None) (fun d => mat_of R_frac d n n (fun i j => Qsum n (fun k => g i k * g k j)%Q))) /\
  (n = m -> ret may_abort (trace Frac_ops x) (fun t => R_frac t (Qsum n (fun i => g i i)))).
Proof.
  intros x y n m p g h Hx Hy.
  destruct (PropsMat.C48_product _ _ Frac_ops may_abort R_frac _ Qplus Qmult (Frac_const_exact 0 ltac:(lia)) Frac_addA_exact Frac_mul_exact
    x y n m m p g h Hx Hy) as (_ & H1 & H2 & _). destruct (H1 eq_refl) as [H3 H4]. splits; auto.
  intros N. apply (PropsMat.C48_trace _ _ Frac_ops may_abort R_frac _ Qplus (Frac_const_exact 0 ltac:(lia)) Frac_addA_exact x n m g Hx), N.
Qed.
Theorem C94_vec : forall x y n v w, seq_of R_frac x n v -> seq_of R_frac y n w ->
  ret may_abort (dot Frac_ops x y) (fun r => R_frac r (Qsum n (fun i => v i * w i)%Q)) /\
  (n = 3 -> ret may_abort (cross Frac_ops x y) (fun r => seq_of R_frac r 3 (cross_at Qminus Qmult v w))) /\
  ret never (V_eq Frac_ops x y) (fun b => b = true <-> forall i, i < n -> (v i == w i)%Q).
Proof.
  intros x y n v w Hx Hy. splits.
  - apply (PropsVec.C45_value _ _ Frac_ops may_abort R_frac _ Qplus Qmult (Frac_const_exact 0 ltac:(lia)) Frac_addA_exact Frac_mul_exact x y n n v w Hx Hy). reflexivity.
  - intros ->. apply (PropsVec.C46_value _ _ Frac_ops may_abort R_frac _ _ Frac_sub_exact Frac_mul_exact x y v w Hx Hy).
  - eapply V_eq_ok; eauto. intros; apply Frac_eq_exact; auto.
Qed.

(** Nothing is aborted if exact arithmetic meets only quotients of integers up to
    7*10^8. *)
Section Small.
Variable ok : Q -> bool.
Hypothesis Hok : forall q, ok q = true -> small_ratio q = true.
Local Notation W := (watched ok).
Local Notation D := Frac_ops.
Local Notation V := (vec_sim is_frac).
Local Notation MM := (mat_sim is_frac).
Let HR := frac_ring ok Hok.
Let HD := frac_field ok Hok.

Theorem C94_vec_small : forall x y x' y' a a', V x x' -> V y y' -> is_frac a a' ->
  follows V (V_add W x y) (V_add D x' y') /\ follows V (V_sub W x y) (V_sub D x' y') /\
  follows V (V_scale W a x) (V_scale D a' x') /\ follows V (V_div W x a) (V_div D x' a') /\
  follows is_frac (dot W x y) (dot D x' y') /\ follows V (cross W x y) (cross D x' y').
Proof.
  intros x y x' y' a a' Hx Hy Ha. splits; apply sim_follows.
  1, 2: apply vec_binary_sim; auto; first [apply (sim_addA _ _ _ _ HR)|apply (sim_subA _ _ _ _ HR)].
  1, 2: apply sim_final, scale_assign_sim; auto; first [intros; apply (frac_mulA ok); auto|apply (sim_divA _ _ _ _ HD)].
  - apply (dot_sim _ _ _ _ HR); auto.
  - apply (cross_sim _ _ _ _ HR); auto.
Qed.
Theorem C94_mat_small : forall x y x' y' a a', MM x x' -> MM y y' -> is_frac a a' ->
  follows MM (M_add W x y) (M_add D x' y') /\ follows MM (M_sub W x y) (M_sub D x' y') /\
  follows MM (M_scale W a x) (M_scale D a' x') /\ follows MM (M_div W x a) (M_div D x' a') /\
  follows MM (M_product W x y) (M_product D x' y') /\ follows is_frac (trace W x) (trace D x').
Proof.
  intros x y x' y' a a' Hx Hy Ha. splits; apply sim_follows.
  1, 2: apply (mat_binary_sim _ _ _ _ HR); auto; first [apply (sim_add _ _ _ _ HR)|apply (sim_sub _ _ _ _ HR)].
  - apply (M_scale_sim _ _ _ _ HR); auto.
  - apply (M_div_sim _ _ _ _ HR HD); auto.
  - apply (M_product_sim _ _ _ _ HR); auto.
  - apply (trace_sim _ _ _ _ HR); auto.
Qed.
End Small.
(** the condition is needed: the last dot product is 1/3 * 10^18 *)
Example C94_ex :
  M_product Frac_ops (MF 2 2 [(1, 2); (1, 3); (1, 3); (1, 4)]%Z) (MF 2 2 [(18, 1); (-24, 1); (-24, 1); (36, 1)]%Z) = Ok (MF 2 2 [(1, 1); (0, 1); (0, 1); (1, 1)]%Z) /\
  M_product (watched small_ratio) (mkMat 1 2 [Some (1 # 2); Some (1 # 3)]) (mkMat 2 1 [Some (18 # 1); Some (-24 # 1)]) = Ok (mkMat 1 1 [Some 1%Q]) /\
  trace Frac_ops (MF 2 2 [(1, 2); (1, 3); (1, 3); (1, 4)]%Z) = Ok (F 3 4) /\
  cross Frac_ops [F 1 2; F 0 1; F 0 1] [F 0 1; F 2 3; F 0 1] = Ok [F 0 1; F 0 1; F 1 3] /\
  M_div Frac_ops (MF 1 2 [(1, 2); (-2, 3)]%Z) (F (-2) 3) = Ok (MF 1 2 [(-3, 4); (1, 1)]%Z) /\
  dot Frac_ops [F 1000000000 1] [F 1000000000 3] = Abort /\ dot (watched small_ratio) [1000000000 # 1] [1000000000 # 3] = UB.
Proof. vm_compute. auto 10. Qed.
Print Assumptions C94_mat.
Print Assumptions C94_product.
Print Assumptions C94_vec.
Print Assumptions C94_vec_small.
Print Assumptions C94_mat_small.

(** ** C95: dividing by zero. A Vec is divided by its element type's /=, a Mat by /
    (operator /) and by /= (operator /=). *)
Lemma V_div_throws {T} (E : ops T) x e l z k : x = e :: l -> divA E e (Some z) = Throw k ->
  V_div E x z = Throw k /\ V_div_assign E x (Val z) = (x, Throw k).
Proof. intros -> H. unfold V_div, V_div_assign, scale_assign. cbn [length for_]. unfold assign_at. cbn [get_at nth_error bind]. rewrite H. auto. Qed.
Lemma M_div_throws {T} (E : ops T) m r c z k : dims m (S r) (S c) -> (exists e, entry m 0 0 = Ok e /\ div E e z = Throw k) -> M_div E m z = Throw k.
Proof.
  intros (Dr & Dc & _) (e & He & Hd). unfold M_div, fill, for2. rewrite Dr, Dc. cbn [for_]. unfold eval at 1. rewrite He. cbn [bind]. rewrite Hd. reflexivity.
Qed.
Lemma M_div_assign_throws {T} (E : ops T) m r c z k : dims m (S r) (S c) -> (exists e, entry m 0 0 = Ok e /\ divA E e (Some z) = Throw k) ->
  M_div_assign E m (MVal z) = (m, Throw k).
Proof.
  intros (Dr & Dc & _) (e & He & Hd). unfold M_div_assign, mat_scale_assign, for2. rewrite Dr, Dc. cbn [for_]. unfold assign_entry, eval at 1. rewrite He. cbn [bind]. rewrite Hd. reflexivity.
Qed.
(** Int: always DivideByZero, and the operand of /= keeps its value *)
Theorem C95_int : forall z, canonical z -> val z = 0%Z ->
  (forall x, Forall canonical x -> x <> [] -> V_div Int_ops x z = Throw DivideByZero /\ V_div_assign Int_ops x (Val z) = (x, Throw DivideByZero)) /\
  (forall m r c g, mat_of R_int m (S r) (S c) g -> M_div Int_ops m z = Throw DivideByZero /\ M_div_assign Int_ops m (MVal z) = (m, Throw DivideByZero)).
Proof.
  intros z Cz Hz.
  assert (G : forall e, canonical e -> div Int_ops e z = Throw DivideByZero /\ divA Int_ops e (Some z) = Throw DivideByZero).
  { intros e Ce. assert (H : op_div e z = Throw DivideByZero) by (destruct (PropsInt.op_div_cases e z Ce Cz) as [[_ H]|[(H & _)|(H & _)]]; [exact H|contradiction..]). auto. }
  split.
  - intros x Hx N. destruct x as [|e l]; [contradiction|]. inversion Hx; subst. eapply V_div_throws; [reflexivity|]. apply G; auto.
  - intros m r c g Hm. pose proof (mat_of_dims _ _ _ _ _ Hm) as D. destruct (ret_False _ _ (entry_of never R_int m (S r) (S c) g 0 0 Hm ltac:(lia) ltac:(lia))) as (e & Ee & Ce & _).
    split; [eapply M_div_throws|eapply M_div_assign_throws]; eauto; exists e; (split; [exact Ee|apply G, Ce]).
Qed.
(** Frac: the matrix operator / throws *)
Theorem C95_frac_matrix : forall z m r c g, reduced z -> (Fval z == 0)%Q -> mat_of R_frac m (S r) (S c) g -> M_div Frac_ops m z = Throw DivideByZero.
Proof.
  intros z m r c g Rz Hz Hm. pose proof (mat_of_dims _ _ _ _ _ Hm) as D. destruct (ret_False _ _ (entry_of never R_frac m (S r) (S c) g 0 0 Hm ltac:(lia) ltac:(lia))) as (e & Ee & Re & _).
  eapply M_div_throws; eauto. exists e. split; [exact Ee|]. apply (PropsFrac.C33_frac_frac e z Re Rz), Hz.
Qed.
(** the other three return "fractions" with the denominator 0 *)
Definition infinite (t : Z) : Frac := mkFrac (mkInt [1%Z] (t <? 0)%Z) (mkInt [0%Z] false).
Theorem C95_frac_refuted : exists z x m, reduced z /\ (Fval z == 0)%Q /\ Forall reduced x /\ filled m 1 2 /\
  V_div Frac_ops x z = Ok [F 1 0; F (-1) 0] /\ V_div_assign Frac_ops x (Val z) = ([F 1 0; F (-1) 0], Ok tt) /\
  M_div Frac_ops m z = Throw DivideByZero /\ M_div_assign Frac_ops m (MVal z) = (MF 1 2 [(1, 0); (-1, 0)]%Z, Ok tt).
Proof.
  exists (F 0 1), [F 3 4; F (-1) 2], (MF 1 2 [(3, 4); (-1, 2)]%Z). split; [PropsFrac.exr|]. split; [reflexivity|].
  split; [constructor; [PropsFrac.exr|constructor; [PropsFrac.exr|constructor]]|].
  split; [|vm_compute; auto 10].
  exists (fun _ j => match j with 0 => F 3 4 | _ => F (-1) 2 end). split; [|split; [|split]]; try reflexivity.
  intros i j Hi Hj. assert (i = 0) as -> by lia. destruct j as [|[|j]]; [eexists; split; reflexivity..|lia].
Qed.
(** Missing in general: the exception. If no element is 0, the quotients are 1/0 and
    -1/0 and no exception is thrown (for numerators below 10^18); if the first one
    is 0, DivideByZero is. *)
Definition R_top (f : Frac) (t : Z) : Prop := reduced f /\ val (top f) = t /\ t <> 0%Z /\ (Z.abs t < 10 ^ 18)%Z.
Lemma infinite_exact z : reduced z -> (Fval z == 0)%Q -> assign_exact never R_top (fun f _ => f = z) (fun f t => f = infinite t) (divA Frac_ops) (fun t _ => t).
Proof.
  intros Rz Hz. split.
  - intros x y t b (Rx & <- & N & L) ->. destruct (PropsFrac.C35_div_assign_zero x (Some z) Rx) as [[H _]|[(_ & H & _)|(_ & _ & H)]]; auto; [intros ? [= <-]; auto|contradiction| |].
    + destruct H. apply IntScale.div_safe_small. change (B ^ 2)%Z with (10 ^ 18)%Z. lia.
    + left. exists (infinite (val (top x))). split; [|reflexivity]. cbn [divA Frac_ops]. rewrite H. reflexivity.
  - intros x t (Rx & <- & N & _) ->. exfalso. apply N. apply PropsFrac.Fval_0; auto.
Qed.
Theorem C95_frac_partial : forall z, reduced z -> (Fval z == 0)%Q ->
  (forall x n t, seq_of R_top x n t -> exists y, V_div Frac_ops x z = Ok y /\ V_div_assign Frac_ops x (Val z) = (y, Ok tt) /\ y = map (fun i => infinite (t i)) (seq 0 n)) /\
  (forall m r c t, mat_of R_top m r c t -> exists d, M_div_assign Frac_ops m (MVal z) = (d, Ok tt) /\ mat_of eq d r c (fun i j => infinite (t i j))) /\
  (forall x e l, x = e :: l -> reduced e -> (Fval e == 0)%Q -> V_div Frac_ops x z = Throw DivideByZero /\ V_div_assign Frac_ops x (Val z) = (x, Throw DivideByZero)).
Proof.
  intros z Rz Hz. splits.
  - intros x n t Hx. destruct (PropsVec.C43_divide _ _ Frac_ops never _ _ _ _ (infinite_exact z Rz Hz) x z n t 0%Z Hx eq_refl) as [_ H].
    apply sret_False in H as [H1 H2]. destruct (V_div_assign Frac_ops x (Val z)) as [y w] eqn:E. cbn [fst snd] in *. subst w. exists y. splits; auto.
    + unfold V_div. rewrite E. reflexivity.
    + apply list_ext; [destruct H2 as [-> _]; rewrite map_length, seq_length; reflexivity|]. intros i Hi. destruct H2 as [L H2]. rewrite L in Hi. destruct (H2 i Hi) as (e & -> & ->).
      rewrite nth_error_map. rewrite nth_error_nth' with (d := 0) by (rewrite seq_length; lia). rewrite seq_nth by lia. reflexivity.
  - intros m r c t Hm. pose proof (mat_scale_val_ok never R_top _ _ _ _ m z r c t 0%Z (infinite_exact z Rz Hz) Hm eq_refl) as H.
    apply sret_False in H as [H1 H2]. exists (fst (M_div_assign Frac_ops m (MVal z))). split; [destruct (M_div_assign Frac_ops m (MVal z)) eqn:E; unfold M_div_assign in E; rewrite E in H1; cbn in *; congruence|].
    apply mat_of_P. apply mat_of_P in H2. exact H2.
  - intros x e l -> Re He. eapply V_div_throws; [reflexivity|]. destruct (PropsFrac.C35_div_assign_zero e (Some z) Re) as [(_ & f & H & _)|[(H & _)|(H & _)]]; auto; [intros ? [= <-]; auto| |..].
    + cbn [divA Frac_ops]. rewrite H. reflexivity.
    + destruct H. apply PropsFrac.Fval_0; auto.
    + destruct H. apply PropsFrac.Fval_0; auto.
Qed.
Example C95_ex : V_div Int_ops [I 7; I 0] (I 0) = Throw DivideByZero /\ V_div_assign Int_ops [I 7; I 0] (Val (I 0)) = ([I 7; I 0], Throw DivideByZero) /\
  M_div_assign Int_ops (PropsMat.MI 1 2 [7; 8]%Z) (MVal (I 0)) = (PropsMat.MI 1 2 [7; 8]%Z, Throw DivideByZero) /\
  V_div Int_ops [] (I 0) = Ok [] /\ V_div Frac_ops [F 0 1; F 1 2] (F 0 1) = Throw DivideByZero /\
  V_div_assign Frac_ops [F (-5) 7] (Val (F 0 1)) = ([infinite (-5)], Ok tt).
Proof. vm_compute. auto 10. Qed.
Print Assumptions C95_int.
Print Assumptions C95_frac_matrix.
Print Assumptions C95_frac_refuted.
Print Assumptions C95_frac_partial.
