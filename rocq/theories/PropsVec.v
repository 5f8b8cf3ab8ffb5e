(** Property theorems about Vec: C43-C47. *)
From Coq Require Import QArith Ascii String Ring.
From Verif Require Import Base IntModel IntSpec IntBasics IOModel IOSpec IOProofs FracModel FracSpec
  ElemModel ElemSpec ElemProofs ElemInst VecModel VecProofs.
From Verif Require PropsIO PropsFrac.
Local Open Scope nat_scope.
Local Open Scope list_scope.

Definition I (k : Z) : Int := PropsFrac.i k.
Definition F (t b : Z) : Frac := PropsFrac.fr t b.

(** *** Plain lists and [seq_of] *)
Lemma seq_of_int (x : list Int) : Forall canonical x -> seq_of R_int x (length x) (fun i => nth i (map val x) 0%Z).
Proof.
  intros H. split; auto. intros i Hi. destruct (get_at_lt x i Hi) as (e & _ & E). exists e. split; auto. split.
  - rewrite Forall_forall in H. apply H. eapply nth_error_In; eauto.
  - symmetry. apply nth_error_nth. rewrite nth_error_map, E. reflexivity.
Qed.
Lemma seq_of_values {T A} (R : T -> A -> Prop) (P : T -> Prop) (g : T -> A) x n v :
  (forall e a, R e a -> P e /\ g e = a) -> seq_of R x n v -> Forall P x /\ map g x = map v (seq 0 n).
Proof.
  intros HR [L H]. split.
  - apply Forall_forall. intros e He. apply In_nth_error in He as [i Hi].
    assert (i < n) by (rewrite <- L; apply nth_error_Some; congruence).
    destruct (H i) as (e' & E & He); auto. apply (HR e (v i)). congruence.
  - apply list_ext; [rewrite !map_length, seq_length; auto|]. intros i Hi. rewrite map_length in Hi.
    destruct (H i) as (e & E & He); [lia|]. apply HR in He as [_ He].
    rewrite !nth_error_map, E. cbn. rewrite nth_error_nth' with (d := 0) by (rewrite seq_length; lia).
    rewrite seq_nth by lia. cbn. congruence.
Qed.
Lemma map_seq_combine (f : Z -> Z -> Z) (x y : list Z) n : length x = n -> length y = n ->
  map (fun i => f (nth i x 0%Z) (nth i y 0%Z)) (seq 0 n) = map (fun p => f (fst p) (snd p)) (combine x y).
Proof.
  intros Lx Ly. apply list_ext; [rewrite !map_length, seq_length, combine_length; lia|]. intros i Hi.
  rewrite map_length, seq_length in Hi. rewrite !nth_error_map.
  rewrite nth_error_nth' with (d := 0) by (rewrite seq_length; lia). rewrite seq_nth by lia. cbn [option_map Nat.add].
  rewrite nth_error_nth' with (d := (0, 0)%Z) by (rewrite combine_length; lia). rewrite combine_nth by lia. reflexivity.
Qed.
Lemma map_seq_map (f : Z -> Z) (x : list Z) : map (fun i => f (nth i x 0%Z)) (seq 0 (length x)) = map f x.
Proof.
  apply list_ext; [rewrite !map_length, seq_length; lia|]. intros i Hi. rewrite map_length, seq_length in Hi. rewrite !nth_error_map.
  rewrite nth_error_nth' with (d := 0) by (rewrite seq_length; lia). rewrite seq_nth by lia. cbn [option_map Nat.add].
  rewrite nth_error_nth' with (d := 0%Z) by lia. reflexivity.
Qed.

(** ** C43 *)
(** For every element type whose += (-=) is exact. *)
Theorem C43_add : forall T A (E : ops T) ab (R R' : T -> A -> Prop) f, assign_exact ab R R R' (addA E) f ->
  forall x y n m v w, seq_of R x n v -> seq_of R y m w ->
  (n <> m -> V_add E x y = Throw InvalidArgument /\ V_add_assign E x (Some y) = (x, Throw InvalidArgument)) /\
  (n = m -> ret ab (V_add E x y) (fun r => seq_of R' r n (fun i => f (v i) (w i))) /\
            sret ab (V_add_assign E x (Some y)) (fun r => seq_of R' r n (fun i => f (v i) (w i)))) /\
  sret ab (V_add_assign E x None) (fun r => seq_of R' r n (fun i => f (v i) (v i))).
Proof.
  intros T A E ab R R' f H x y n m v w Hx Hy. splits.
  - intros N. assert (length x <> length y) by (destruct Hx, Hy; congruence). split; [apply vec_binary_bad; auto|apply vec_assign_bad; auto].
  - intros <-. split; [apply (vec_binary_ok ab R R'); auto|apply (vec_assign_ok ab R R' _ f x (Some y)); auto].
  - apply (vec_assign_ok ab R R' _ f x None); auto.
Qed.
Theorem C43_sub : forall T A (E : ops T) ab (R R' : T -> A -> Prop) f, assign_exact ab R R R' (subA E) f ->
  forall x y n m v w, seq_of R x n v -> seq_of R y m w ->
  (n <> m -> V_sub E x y = Throw InvalidArgument /\ V_sub_assign E x (Some y) = (x, Throw InvalidArgument)) /\
  (n = m -> ret ab (V_sub E x y) (fun r => seq_of R' r n (fun i => f (v i) (w i))) /\
            sret ab (V_sub_assign E x (Some y)) (fun r => seq_of R' r n (fun i => f (v i) (w i)))) /\
  sret ab (V_sub_assign E x None) (fun r => seq_of R' r n (fun i => f (v i) (v i))).
Proof.
  intros T A E ab R R' f H x y n m v w Hx Hy. splits.
  - intros N. assert (length x <> length y) by (destruct Hx, Hy; congruence). split; [apply vec_binary_bad; auto|apply vec_assign_bad; auto].
  - intros <-. split; [apply (vec_binary_ok ab R R'); auto|apply (vec_assign_ok ab R R' _ f x (Some y)); auto].
  - apply (vec_assign_ok ab R R' _ f x None); auto.
Qed.
(** Scaling by a value outside the vector. *)
Theorem C43_scale : forall T A (E : ops T) ab (R S R' : T -> A -> Prop) f, assign_exact ab R S R' (mulA E) f ->
  forall x a n v c, seq_of R x n v -> S a c ->
  ret ab (V_scale E a x) (fun r => seq_of R' r n (fun i => f (v i) c)) /\
  ret ab (V_mul E x a) (fun r => seq_of R' r n (fun i => f (v i) c)) /\
  sret ab (V_mul_assign E x (Val a)) (fun r => seq_of R' r n (fun i => f (v i) c)).
Proof.
  intros T A E ab R S R' f H x a n v c Hx Ha.
  assert (G := scale_val_ok ab R R' S _ f x a n v c H Hx Ha). splits; [apply ret_final, G|apply ret_final, G|exact G].
Qed.
Theorem C43_divide : forall T A (E : ops T) ab (R S R' : T -> A -> Prop) f, assign_exact ab R S R' (divA E) f ->
  forall x a n v c, seq_of R x n v -> S a c ->
  ret ab (V_div E x a) (fun r => seq_of R' r n (fun i => f (v i) c)) /\
  sret ab (V_div_assign E x (Val a)) (fun r => seq_of R' r n (fun i => f (v i) c)).
Proof.
  intros T A E ab R S R' f H x a n v c Hx Ha.
  assert (G := scale_val_ok ab R R' S _ f x a n v c H Hx Ha). splits; [apply ret_final, G|exact G].
Qed.

(** Vec<Int>, spelled out *)
Theorem C43_int_add_sub : forall x y : list Int, Forall canonical x -> Forall canonical y ->
  (length x <> length y /\ V_add Int_ops x y = Throw InvalidArgument /\ V_sub Int_ops x y = Throw InvalidArgument) \/
  (length x = length y /\ exists s d, V_add Int_ops x y = Ok s /\ V_sub Int_ops x y = Ok d /\
     Forall canonical s /\ map val s = map (fun p => fst p + snd p)%Z (combine (map val x) (map val y)) /\
     Forall canonical d /\ map val d = map (fun p => fst p - snd p)%Z (combine (map val x) (map val y))).
Proof.
  intros x y Hx Hy. apply seq_of_int in Hx, Hy.
  destruct (C43_add _ _ Int_ops never R_int R_int _ Int_addA_exact x y _ _ _ _ Hx Hy) as (A1 & A2 & _).
  destruct (C43_sub _ _ Int_ops never R_int R_int _ Int_subA_exact x y _ _ _ _ Hx Hy) as (S1 & S2 & _).
  destruct (Nat.eq_dec (length x) (length y)) as [L|L].
  - right. split; auto. destruct (A2 L) as [A3 _]. destruct (S2 L) as [S3 _].
    apply ret_False in A3 as (s & E1 & H1). apply ret_False in S3 as (d & E2 & H2).
    apply (seq_of_values R_int canonical val) in H1 as [C1 V1]; [|auto].
    apply (seq_of_values R_int canonical val) in H2 as [C2 V2]; [|auto].
    exists s, d. splits; auto; [rewrite V1; apply (map_seq_combine Z.add)|rewrite V2; apply (map_seq_combine Z.sub)]; rewrite map_length; auto.
  - left. splits; auto; [apply A1; auto|apply S1; auto].
Qed.
Theorem C43_int_scale : forall (x : list Int) a, Forall canonical x -> canonical a ->
  exists r, V_scale Int_ops a x = Ok r /\ Forall wf r /\ map val r = map (fun v => v * val a)%Z (map val x).
Proof.
  intros x a Hx Ha. apply seq_of_int in Hx.
  destruct (C43_scale _ _ Int_ops never R_int R_int R_int0 _ Int_mulA_exact x a _ _ (val a) Hx (conj Ha eq_refl)) as [H _].
  apply ret_False in H as (r & E & H). apply (seq_of_values R_int0 wf val) in H as [W V]; [|intros e b (A1 & A2 & A3); auto].
  exists r. splits; auto. rewrite V. rewrite <- map_seq_map. rewrite map_length. reflexivity.
Qed.
Theorem C43_int_divide : forall (x : list Int) a, Forall canonical x -> canonical a -> val a <> 0%Z ->
  V_div Int_ops x a = Abort \/
  exists r, V_div Int_ops x a = Ok r /\ Forall canonical r /\ map val r = map (fun v => Z.quot v (val a)) (map val x).
Proof.
  intros x a Hx Ha N. apply seq_of_int in Hx.
  destruct (C43_divide _ _ Int_ops may_abort R_int _ R_int _ Int_divA_exact x a _ _ (val a) Hx (conj (conj Ha eq_refl) N)) as [H _]; apply ret_abort in H as [(r & E & H)|H]; [|auto].
  right. apply (seq_of_values R_int canonical val) in H as [W V]; [|auto].
  exists r. splits; auto. rewrite V. rewrite <- (map_seq_map (fun v => Z.quot v (val a))). rewrite map_length. reflexivity.
Qed.
(** Vec<Frac>: the exact result, or an aborted assertion (see C33) *)
Theorem C43_frac : forall (x y : list Frac) n v w, seq_of R_frac x n v -> seq_of R_frac y n w ->
  ret may_abort (V_add Frac_ops x y) (fun r => seq_of R_frac r n (fun i => v i + w i)%Q) /\
  ret may_abort (V_sub Frac_ops x y) (fun r => seq_of R_frac r n (fun i => v i - w i)%Q) /\
  (forall a c, R_frac a c -> ret may_abort (V_scale Frac_ops a x) (fun r => seq_of R_frac r n (fun i => v i * c)%Q)) /\
  (forall a c, R_frac a c -> ~ (c == 0)%Q -> ret may_abort (V_div Frac_ops x a) (fun r => seq_of R_frac r n (fun i => v i / c)%Q)).
Proof.
  intros x y n v w Hx Hy. splits.
  - apply (C43_add _ _ Frac_ops may_abort R_frac R_frac _ Frac_addA_exact x y n n v w Hx Hy). reflexivity.
  - apply (C43_sub _ _ Frac_ops may_abort R_frac R_frac _ Frac_subA_exact x y n n v w Hx Hy). reflexivity.
  - intros a c Ha. apply (C43_scale _ _ Frac_ops may_abort R_frac R_frac R_frac _ Frac_mulA_exact x a n v c Hx Ha).
  - intros a c Ha N. apply (C43_divide _ _ Frac_ops may_abort R_frac _ R_frac _ Frac_divA_exact x a n v c Hx (conj Ha N)).
Qed.
(** Vec<int>: as long as no element overflows *)
Theorem C43_int32_add_sub : forall x y : list Z, length x = length y ->
  (Forall (fun p => INT32_MIN <= fst p + snd p <= INT32_MAX)%Z (combine x y) ->
   V_add int32_ops x y = Ok (map (fun p => fst p + snd p)%Z (combine x y))) /\
  (Forall (fun p => INT32_MIN <= fst p - snd p <= INT32_MAX)%Z (combine x y) ->
   V_sub int32_ops x y = Ok (map (fun p => fst p - snd p)%Z (combine x y))).
Proof.
  intros x y L.
  assert (Hs : forall z : list Z, seq_of eq z (length z) (fun i => nth i z 0%Z)).
  { intros z. split; auto. intros i Hi. exists (nth i z 0%Z). split; auto. apply nth_error_nth'. auto. }
  assert (G : forall (op : Z -> option Z -> res Z) f,
    (forall a b, op a (Some b) = i32 (f a b)) -> Forall (fun p => INT32_MIN <= f (fst p) (snd p) <= INT32_MAX)%Z (combine x y) ->
    vec_binary op x y = Ok (map (fun p => f (fst p) (snd p)) (combine x y))).
  { intros op f Hop H.
    destruct (vec_binary_pt never eq eq op f x y (length x) (fun i => nth i x 0%Z) (fun i => nth i y 0%Z)) as [(r & E & Hr)|(? & [] & _)].
    - intros i e d Hi -> ->. left. exists (f (nth i x 0%Z) (nth i y 0%Z)). split; auto. rewrite Hop. unfold i32.
      rewrite Forall_forall in H. specialize (H (nth i x 0%Z, nth i y 0%Z)). cbn [fst snd] in H.
      assert (Hb : (INT32_MIN <= f (nth i x 0) (nth i y 0) <= INT32_MAX)%Z).
      { apply H. rewrite <- combine_nth by auto. apply nth_In. rewrite combine_length. lia. }
      unfold in_int32. replace ((_ <=? _) && _)%Z%bool with true; auto. symmetry. apply andb_true_intro. split; apply Z.leb_le; apply Hb.
    - apply Hs.
    - rewrite L. apply Hs.
    - rewrite E. f_equal. apply (seq_of_values eq (fun _ => True) (fun e => e)) in Hr as [_ Hr]; [|auto].
      rewrite map_id in Hr. rewrite Hr. apply map_seq_combine; auto. }
  split; intros H; [apply (G _ Z.add)|apply (G _ Z.sub)]; auto.
Qed.
Example C43_ex : V_add Int_ops [I 999999999; I (-5)] [I 1; I 7] = Ok [I 1000000000; I 2] /\
  V_sub_assign Int_ops [I 3; I 4] None = ([I 0; I 0], Ok tt) /\
  V_add_assign Int_ops [I 3; I 4] (Some [I 1]) = ([I 3; I 4], Throw InvalidArgument) /\
  V_scale Frac_ops (F 2 3) [F 1 2; F (-3) 4] = Ok [F 1 3; F (-1) 2] /\
  V_div Int_ops [I 7; I (-7)] (I 2) = Ok [I 3; I (-3)] /\
  V_add int32_ops [2147483647]%Z [1]%Z = UB.
Proof. vm_compute. auto 10. Qed.
Print Assumptions C43_add.
Print Assumptions C43_sub.
Print Assumptions C43_scale.
Print Assumptions C43_divide.
Print Assumptions C43_int_add_sub.
Print Assumptions C43_int_scale.
Print Assumptions C43_int_divide.
Print Assumptions C43_frac.
Print Assumptions C43_int32_add_sub.

(** ** C44 *)
(** The elements after the k-th are scaled by the new k-th element. *)
Theorem C44_refuted : exists x k, k < length x /\
  V_mul_assign int32_ops x (Elem k) <> V_mul_assign int32_ops x (Val (nth k x 0%Z)) /\
  V_mul_assign int32_ops x (Elem k) = ([9; 36], Ok tt)%Z /\ x = [3; 4]%Z.
Proof. exists [3; 4]%Z, 0. vm_compute. splits; auto; discriminate. Qed.
Theorem C44_div_refuted : exists x k, k < length x /\
  V_div_assign Frac_ops x (Elem k) <> V_div_assign Frac_ops x (Val (nth k x (F 0 1))) /\
  V_div_assign Frac_ops x (Elem k) = ([F 1 1; F 4 1], Ok tt) /\ x = [F 2 1; F 4 1].
Proof. exists [F 2 1; F 4 1], 0. vm_compute. splits; auto; discriminate. Qed.
(** What does hold, for every element type; the statement asks for f (v i) (v k) at
    every i. *)
Theorem C44_scale_partial : forall T A (E : ops T) ab (R S R' : T -> A -> Prop) f, assign_exact ab R S R' (mulA E) f ->
  forall x k n v, seq_of R x n v -> k < n ->
  (forall e, R e (v k) -> S e (v k)) -> (forall e, R' e (f (v k) (v k)) -> S e (f (v k) (v k))) ->
  sret ab (V_mul_assign E x (Elem k)) (fun r => seq_of R' r n (fun i => f (v i) (if i <=? k then v k else f (v k) (v k)))).
Proof. intros. eapply scale_elem_ok; eauto. Qed.
Theorem C44_divide_partial : forall T A (E : ops T) ab (R S R' : T -> A -> Prop) f, assign_exact ab R S R' (divA E) f ->
  forall x k n v, seq_of R x n v -> k < n ->
  (forall e, R e (v k) -> S e (v k)) -> (forall e, R' e (f (v k) (v k)) -> S e (f (v k) (v k))) ->
  sret ab (V_div_assign E x (Elem k)) (fun r => seq_of R' r n (fun i => f (v i) (if i <=? k then v k else f (v k) (v k)))).
Proof. intros. eapply scale_elem_ok; eauto. Qed.
(** Vec<Frac>: after x /= x[k], only the elements up to the k-th are divided. *)
Theorem C44_frac_divide_partial : forall (x : list Frac) k n (v : nat -> Q), seq_of R_frac x n v -> k < n -> ~ (v k == 0)%Q ->
  sret may_abort (V_div_assign Frac_ops x (Elem k)) (fun r => seq_of R_frac r n (fun i => if i <=? k then v i / v k else v i)%Q).
Proof.
  intros x k n v Hx Hk N. eapply sret_mono.
  - eapply (C44_divide_partial _ _ Frac_ops may_abort R_frac _ R_frac _ Frac_divA_exact x k n v Hx Hk); [intros e He; split; auto|].
    intros e He. split; auto. intros H. apply N. rewrite <- (Qmult_div_r (v k) (v k) N). rewrite H. apply Qmult_0_r.
  - intros r [L H]. split; auto. intros i Hi. destruct (H i Hi) as (e & E & Re & V). exists e. split; auto. split; auto.
    rewrite V. destruct (i <=? k); [reflexivity|].
    assert (D : (v k / v k == 1)%Q) by (unfold Qdiv; apply Qmult_inv_r; auto). rewrite D. unfold Qdiv.
    change (/ 1)%Q with 1%Q. apply Qmult_1_r.
Qed.
Example C44_ex : V_mul_assign Int_ops [I 2; I 3; I 5] (Elem 1) = ([I 6; I 9; I 45], Ok tt).
Proof. vm_compute. auto. Qed.
Print Assumptions C44_refuted.
Print Assumptions C44_div_refuted.
Print Assumptions C44_scale_partial.
Print Assumptions C44_divide_partial.
Print Assumptions C44_frac_divide_partial.

(** ** C45 *)
Theorem C45_value : forall T A (E : ops T) ab (R : T -> A -> Prop) zero fadd fmul,
  R (of_int E 0) zero -> assign_exact ab R R R (addA E) fadd -> binary_exact ab R (mul E) fmul ->
  forall x y n m v w, seq_of R x n v -> seq_of R y m w ->
  (n <> m -> dot E x y = Throw InvalidArgument) /\
  (n = m -> ret ab (dot E x y) (fun r => R r (sum_to zero fadd n (fun i => fmul (v i) (w i))))).
Proof.
  intros T A E ab R zero fadd fmul H0 Ha Hm x y n m v w Hx Hy. split.
  - intros N. apply dot_bad. destruct Hx, Hy. congruence.
  - intros <-. eapply dot_ok; eauto.
Qed.
Definition Zsum (n : nat) (g : nat -> Z) : Z := sum_to 0%Z Z.add n g.
Theorem C45_int : forall x y : list Int, Forall canonical x -> Forall canonical y -> length x = length y ->
  exists r, dot Int_ops x y = Ok r /\ dot Int_ops y x = Ok r /\ canonical r /\
    val r = Zsum (length x) (fun i => nth i (map val x) 0 * nth i (map val y) 0)%Z.
Proof.
  intros x y Hx Hy L. apply seq_of_int in Hx, Hy.
  pose proof (C45_value _ _ Int_ops never R_int 0%Z Z.add Z.mul (Int_const_exact 0 ltac:(lia)) Int_addA_exact Int_mul_exact) as G.
  destruct (G _ _ _ _ _ _ Hx Hy) as [_ G1]. destruct (G _ _ _ _ _ _ Hy Hx) as [_ G2].
  destruct (ret_False _ _ (G1 L)) as (r & E1 & C1 & V1). destruct (ret_False _ _ (G2 (eq_sym L))) as (r' & E2 & C2 & V2).
  assert (r' = r) as ->.
  { apply canonical_unique_lemma; auto. rewrite V1, V2, L. clear.
    induction (length y) as [|n IH]; cbn [sum_to]; [reflexivity|]. rewrite IH. lia. }
  exists r. splits; auto.
Qed.

(** the operators of a commutative ring, as an element type *)
Section Ring.
Context {K : Type} (rO rI : K) (radd rmul rsub : K -> K -> K) (ropp : K -> K) (Rth : ring_theory rO rI radd rmul rsub ropp eq).
Context (z : Z -> K) (fr : option K) (rdiv : K -> K -> K) (e : K -> K -> bool) (z0 : z 0%Z = rO).
Local Notation E := (exact_ops z fr radd rsub rmul rdiv ropp e).
Add Ring K_ring : Rth.
Local Infix "+" := radd. Local Infix "*" := rmul. Local Infix "-" := rsub.
Definition Ksum (n : nat) (g : nat -> K) : K := sum_to rO radd n g.

Lemma seq_of_self (x : list K) : seq_of eq x (length x) (fun i => nth i x rO).
Proof. split; auto. intros i Hi. exists (nth i x rO). split; auto. apply nth_error_nth'. exact Hi. Qed.
Lemma seq_of_eq (x : list K) n v : seq_of eq x n v -> forall i, Nat.lt i n -> nth i x rO = v i.
Proof. intros [L H] i Hi. destruct (H i Hi) as (b & E1 & <-). apply nth_error_nth, E1. Qed.
Lemma Ksum_ext n g h : (forall i, Nat.lt i n -> g i = h i) -> Ksum n g = Ksum n h.
Proof. unfold Ksum. intros H. induction n as [|n IH]; cbn; auto. f_equal; [apply IH; intros; apply H; lia|apply H; lia]. Qed.
Lemma Ksum_add n g h : Ksum n (fun i => g i + h i) = Ksum n g + Ksum n h.
Proof. unfold Ksum in *. induction n as [|n IH]; cbn in *; [ring|]. rewrite IH. ring. Qed.
Lemma Ksum_scale n c g : Ksum n (fun i => c * g i) = c * Ksum n g.
Proof. unfold Ksum in *. induction n as [|n IH]; cbn in *; [ring|]. rewrite IH. ring. Qed.

Theorem C45_dot : forall x y, length x = length y -> dot E x y = Ok (Ksum (length x) (fun i => nth i x rO * nth i y rO)).
Proof.
  intros x y L.
  destruct (C45_value _ _ E never eq rO radd rmul z0 (exact_addA z fr radd rsub rmul rdiv ropp e) (exact_mul z fr radd rsub rmul rdiv ropp e)
    x y _ _ _ _ (seq_of_self x) (seq_of_self y)) as [_ H].
  apply ret_False in H as (r & Er & ->); auto.
Qed.
Theorem C45_symmetric : forall x y, dot E x y = dot E y x.
Proof.
  intros x y. destruct (Nat.eq_dec (length x) (length y)) as [L|L].
  - rewrite !C45_dot by auto. f_equal. rewrite L. apply Ksum_ext. intros. ring.
  - rewrite !dot_bad by auto. reflexivity.
Qed.
Theorem C45_additive : forall x y w, length x = length y -> length w = length y -> exists s a b,
  V_add E x y = Ok s /\ dot E x w = Ok a /\ dot E y w = Ok b /\ dot E s w = Ok (a + b).
Proof.
  intros x y w L1 L2.
  destruct (C43_add _ _ E never eq eq radd (exact_addA z fr radd rsub rmul rdiv ropp e) x y _ _ _ _ (seq_of_self x) (seq_of_self y)) as (_ & H & _).
  destruct (H L1) as [H1 _]. apply ret_False in H1 as (s & Es & Hs).
  assert (Ls : length s = length x) by apply Hs.
  exists s, (Ksum (length x) (fun i => nth i x rO * nth i w rO)), (Ksum (length y) (fun i => nth i y rO * nth i w rO)).
  splits; auto; try (apply C45_dot; lia). rewrite C45_dot by lia. f_equal. rewrite Ls, <- L1, <- Ksum_add. apply Ksum_ext.
  intros i Hi. rewrite (seq_of_eq _ _ _ Hs) by auto. ring.
Qed.
Theorem C45_homogeneous : forall c x w, length x = length w -> exists s a,
  V_scale E c x = Ok s /\ dot E x w = Ok a /\ dot E s w = Ok (c * a).
Proof.
  intros c x w L1.
  destruct (C43_scale _ _ E never eq eq eq rmul (exact_mulA z fr radd rsub rmul rdiv ropp e) x c _ _ c (seq_of_self x) eq_refl) as (H & _).
  apply ret_False in H as (s & Es & Hs).
  assert (Ls : length s = length x) by apply Hs.
  exists s, (Ksum (length x) (fun i => nth i x rO * nth i w rO)).
  splits; auto; try (apply C45_dot; lia). rewrite C45_dot by lia. f_equal. rewrite Ls, <- Ksum_scale. apply Ksum_ext.
  intros i Hi. rewrite (seq_of_eq _ _ _ Hs) by auto. ring.
Qed.

(** ** C46 *)
Lemma ok3 (a b c a' b' c' : K) : a = a' -> b = b' -> c = c' -> Ok [a; b; c] = Ok [a'; b'; c'].
Proof. intros -> -> ->. reflexivity. Qed.
Ltac three x H := destruct x as [|?a [|?b [|?c [|?d ?x]]]]; cbn in H; try discriminate H; clear H.
Theorem C46_anticommutative : forall x y, length x = 3 -> length y = 3 -> exists r,
  cross E x y = Ok r /\ cross E y x = Ok (map ropp r).
Proof. intros x y Hx Hy. three x Hx. three y Hy. eexists. split; [reflexivity|]. cbn. apply ok3; ring. Qed.
Theorem C46_orthogonal : forall x y, length x = 3 -> length y = 3 -> exists r,
  cross E x y = Ok r /\ dot E x r = Ok rO /\ dot E y r = Ok rO.
Proof.
  intros x y Hx Hy. three x Hx. three y Hy. eexists. split; [reflexivity|].
  split; (rewrite C45_dot by reflexivity); f_equal; cbn; ring.
Qed.
Theorem C46_lagrange : forall x y, length x = 3 -> length y = 3 -> exists r rr xx yy xy,
  cross E x y = Ok r /\ dot E r r = Ok rr /\ dot E x x = Ok xx /\ dot E y y = Ok yy /\ dot E x y = Ok xy /\
  rr + xy * xy = xx * yy.
Proof.
  intros x y Hx Hy. three x Hx. three y Hy.
  do 5 eexists. splits; [reflexivity|apply C45_dot; reflexivity|apply C45_dot; reflexivity|apply C45_dot; reflexivity|apply C45_dot; reflexivity|]. cbn. ring.
Qed.
Theorem C46_vector_triple_product : forall x y w, length x = 3 -> length y = 3 -> length w = 3 ->
  exists xw xy yy ww r, dot E x w = Ok xw /\ dot E x y = Ok xy /\ V_scale E xw y = Ok yy /\ V_scale E xy w = Ok ww /\
    V_sub E yy ww = Ok r /\ vector_triple_product E x y w = Ok r.
Proof.
  intros x y w Hx Hy Hw. three x Hx. three y Hy. three w Hw.
  do 5 eexists. splits; [apply C45_dot; reflexivity|apply C45_dot; reflexivity|reflexivity|reflexivity|reflexivity|].
  cbn. apply ok3; ring.
Qed.
Theorem C46_scalar_triple_product : forall x0 x1 x2 y0 y1 y2 w0 w1 w2,
  scalar_triple_product E [x0; x1; x2] [y0; y1; y2] [w0; w1; w2] =
  Ok (x0 * y1 * w2 + x1 * y2 * w0 + x2 * y0 * w1 - x2 * y1 * w0 - x1 * y0 * w2 - x0 * y2 * w1).
Proof.
  intros. unfold scalar_triple_product. change (cross E [y0; y1; y2] [w0; w1; w2]) with (Ok [y1 * w2 - y2 * w1; y2 * w0 - y0 * w2; y0 * w1 - y1 * w0]).
  cbn [bind]. rewrite C45_dot by reflexivity. f_equal. cbn. ring.
Qed.
Theorem C46_rotation : forall x y w, length x = 3 -> length y = 3 -> length w = 3 ->
  scalar_triple_product E x y w = scalar_triple_product E y w x /\ exists r, scalar_triple_product E x y w = Ok r.
Proof.
  intros x y w Hx Hy Hw. three x Hx. three y Hy. three w Hw. rewrite !C46_scalar_triple_product.
  split; [f_equal; ring|eauto].
Qed.
End Ring.
Theorem C46_size : forall T (E : ops T) x y, ~ (length x = 3 /\ length y = 3) -> cross E x y = Throw InvalidArgument.
Proof. intros. apply cross_bad; auto. Qed.
Theorem C46_value : forall T A (E : ops T) ab (R : T -> A -> Prop) fsub fmul,
  binary_exact ab R (sub E) fsub -> binary_exact ab R (mul E) fmul ->
  forall x y v w, seq_of R x 3 v -> seq_of R y 3 w -> ret ab (cross E x y) (fun r => seq_of R r 3 (cross_at fsub fmul v w)).
Proof. intros. eapply cross_ok; eauto. Qed.
Theorem C46_int : forall x0 x1 x2 y0 y1 y2, Forall canonical [x0; x1; x2; y0; y1; y2] -> exists r,
  cross Int_ops [x0; x1; x2] [y0; y1; y2] = Ok r /\ Forall canonical r /\
  map val r = [val x1 * val y2 - val x2 * val y1; val x2 * val y0 - val x0 * val y2; val x0 * val y1 - val x1 * val y0]%Z.
Proof.
  intros x0 x1 x2 y0 y1 y2 H.
  assert (Hx : Forall canonical [x0; x1; x2]) by (repeat match goal with H : Forall _ _ |- _ => inversion H; clear H; subst end; auto).
  assert (Hy : Forall canonical [y0; y1; y2]) by (repeat match goal with H : Forall _ _ |- _ => inversion H; clear H; subst end; auto).
  apply seq_of_int in Hx, Hy.
  destruct (ret_False _ _ (C46_value _ _ Int_ops never R_int _ _ Int_sub_exact Int_mul_exact _ _ _ _ Hx Hy)) as (r & E & Hr).
  exists r. split; auto. apply (seq_of_values R_int canonical val) in Hr as [C V]; [|auto]. split; auto.
Qed.
Example C45_ex : dot Int_ops [I 1000000000; I (-2)] [I 3; I 4] = Ok (I 2999999992) /\
  dot Frac_ops [F 1 2; F 1 3] [F 1 3; F 1 4] = Ok (F 1 4) /\ dot int32_ops [1; 2]%Z [3]%Z = Throw InvalidArgument.
Proof. vm_compute. auto. Qed.
Example C46_ex : cross Int_ops [I 1; I 2; I 3] [I 4; I 5; I 6] = Ok [I (-3); I 6; I (-3)] /\
  vector_triple_product int32_ops [1; 2; 3]%Z [4; 5; 6]%Z [7; 8; 10]%Z = Ok [-12; 9; -2]%Z /\
  scalar_triple_product int32_ops [1; 2; 3]%Z [4; 5; 6]%Z [7; 8; 10]%Z = Ok (-3)%Z /\
  cross int32_ops [1; 2]%Z [3; 4]%Z = Throw InvalidArgument.
Proof. vm_compute. auto. Qed.
Print Assumptions C45_value.
Print Assumptions C45_int.
Print Assumptions C45_dot.
Print Assumptions C45_symmetric.
Print Assumptions C45_additive.
Print Assumptions C45_homogeneous.
Print Assumptions C46_anticommutative.
Print Assumptions C46_orthogonal.
Print Assumptions C46_lagrange.
Print Assumptions C46_vector_triple_product.
Print Assumptions C46_scalar_triple_product.
Print Assumptions C46_rotation.
Print Assumptions C46_size.
Print Assumptions C46_value.
Print Assumptions C46_int.

(** ** C47 *)
Theorem C47_constantVec : forall T (E : ops T) n v, constantVec E n v = Ok (repeat v n).
Proof. intros. unfold constantVec, setEntries_val, Vec_size. cbn. rewrite repeat_length. reflexivity. Qed.
Theorem C47_concatenate : forall T (E : ops T) x y, concatenate E x y = Ok (x ++ y).
Proof. exact @concatenate_ok. Qed.
Theorem C47_equal : forall T A (E : ops T) ab (R : T -> A -> Prop) (eqA : A -> A -> Prop),
  (forall x y a b, R x a -> R y b -> ret ab (eqb E x y) (fun r => r = true <-> eqA a b)) ->
  forall x y n m v w, seq_of R x n v -> seq_of R y m w ->
  ret ab (V_eq E x y) (fun r => r = true <-> n = m /\ forall i, i < n -> eqA (v i) (w i)) /\
  ret ab (V_ne E x y) (fun r => r = true <-> ~ (n = m /\ forall i, i < n -> eqA (v i) (w i))).
Proof.
  intros T A E ab R eqA He x y n m v w Hx Hy.
  assert (G : ret ab (V_eq E x y) (fun r => r = true <-> n = m /\ forall i, i < n -> eqA (v i) (w i))).
  { destruct (Nat.eq_dec n m) as [<-|N].
    - eapply ret_mono; [eapply V_eq_ok; eauto|]. intros r ->. tauto.
    - left. exists false. split; [|split; [discriminate|tauto]]. apply V_eq_bad. destruct Hx, Hy. congruence. }
  split; auto. unfold V_ne. eapply ret_bind; [exact G|]. intros r H. cbn beta in H. apply ret_ok. rewrite <- H. destruct r; cbn; intuition congruence.
Qed.
Theorem C47_equal_int : forall x y : list Int, Forall canonical x -> Forall canonical y ->
  exists b, V_eq Int_ops x y = Ok b /\ V_ne Int_ops x y = Ok (negb b) /\ (b = true <-> x = y) /\ (b = true <-> map val x = map val y).
Proof.
  intros x y Hx Hy. pose proof (seq_of_int x Hx) as Sx. pose proof (seq_of_int y Hy) as Sy.
  destruct (C47_equal _ _ Int_ops never R_int eq Int_eq_exact x y _ _ _ _ Sx Sy) as [H _].
  apply ret_False in H as (b & E & H). exists b. splits; auto.
  - unfold V_ne. rewrite E. reflexivity.
  - rewrite H. split.
    + intros [L V]. apply list_ext; auto. intros k Hk.
      destruct Sx as [_ Sx]. destruct Sy as [_ Sy]. destruct (Sx k Hk) as (a & Ea & Ca & Va). destruct (Sy k) as (c & Ec & Cc & Vc); [lia|].
      rewrite Ea, Ec. f_equal. apply canonical_unique_lemma; auto. rewrite Va, Vc. apply V, Hk.
    + intros ->. auto.
  - rewrite H. split.
    + intros [L V]. apply (nth_ext _ _ 0%Z 0%Z); [rewrite !map_length; auto|]. intros k Hk. rewrite map_length in Hk. auto.
    + intros Em. split; [|intros; rewrite Em; reflexivity]. rewrite <- (map_length val x), Em. apply map_length.
Qed.
(** setEntries(vals, size) from an array of at least [size] readable elements *)
Theorem C47_setEntries : forall T S (conv : S -> res T) (g : S -> T) v vals size,
  (forall s, conv s = Ok (g s)) -> size <= length vals ->
  (size < length v -> setEntries_array conv v vals size = (v, Throw InvalidArgument)) /\
  (length v <= size -> setEntries_array conv v vals size = (map g (firstn (length v) vals), Ok tt)).
Proof.
  intros T S conv g v vals size Hc Hs. split; intros H.
  - unfold setEntries_array. destruct (Nat.ltb_spec size (length v)); [reflexivity|lia].
  - destruct (setEntries_array_ok conv never (fun i e => option_map g (nth_error vals i) = Some e) v vals size H Hs) as [[E Hr]|(? & [] & _)].
    + intros i s Hi Hn. rewrite Hc. apply ret_ok. rewrite Hn. reflexivity.
    + destruct (setEntries_array conv v vals size) as [r u]. cbn in E, Hr. subst u. f_equal.
      apply (seqP_eq r _ (length v)).
      * rewrite map_length, firstn_length. lia.
      * eapply seqP_mono; [exact Hr|]. intros i e Hi He. cbn beta in *. rewrite nth_error_map, <- He. f_equal.
        rewrite <- (firstn_skipn (length v) vals) at 2. rewrite nth_error_app1; auto. rewrite firstn_length. lia.
Qed.
Theorem C47_setEntries_val : forall T S (conv : S -> res T) v s t, conv s = Ok t ->
  setEntries_val conv v s = (repeat t (length v), Ok tt).
Proof. intros T S conv v s t H. unfold setEntries_val. rewrite H. reflexivity. Qed.
(** the constructors from a std::vector, a Vec or an array of at least [n] elements *)
Theorem C47_construct : forall T S (conv : S -> res T) (g : S -> T) l n, (forall s, conv s = Ok (g s)) -> n <= length l ->
  Vec_of_array conv l n = Ok (map g (firstn n l)) /\ Vec_of_vec conv l = Ok (map g l).
Proof.
  intros T S conv g l n Hc.
  assert (G : forall n, n <= length l -> push_all conv l n = Ok (map g (firstn n l))).
  { clear n. intros n Hn.
    destruct (push_all_ok conv never (fun i e => option_map g (nth_error l i) = Some e) l n n) as [(r & E & Hr)|(? & [] & _)]; auto.
    - intros i s Hi Hi'. rewrite Hc. apply ret_ok. rewrite Hi'. reflexivity.
    - rewrite E. f_equal. apply (seqP_eq r _ n).
      + rewrite map_length, firstn_length. lia.
      + eapply seqP_mono; [exact Hr|]. intros i e Hi He. cbn beta in *. rewrite nth_error_map, <- He. f_equal.
        rewrite <- (firstn_skipn n l) at 2. rewrite nth_error_app1; auto. rewrite firstn_length. lia. }
  intros Hn. split; [apply G; auto|]. unfold Vec_of_vec. rewrite G by auto. rewrite firstn_all. reflexivity.
Qed.
Theorem C47_print : forall T (pr : ostream -> T -> ostream) (txt : T -> list ascii) o x,
  (forall o e, In e x -> owidth o = 0%Z -> obuf (pr o e) = obuf o ++ txt e /\ owidth (pr o e) = 0%Z) -> owidth o = 0%Z ->
  exists o', V_print pr o x = Ok o' /\ owidth o' = 0%Z /\
    obuf o' = obuf o ++ ["("%char] ++ separated (map txt x) ++ [")"%char].
Proof. exact @V_print_ok. Qed.
Theorem C47_print_int : forall x : list Int, Forall canonical x -> exists o texts,
  V_print Int_print fresh_out x = Ok o /\ obuf o = ["("%char] ++ separated texts ++ [")"%char] /\
  Forall2 (fun e t => canonical_text t (val e)) x texts.
Proof.
  intros x Hx. rewrite Forall_forall in Hx.
  assert (G : forall o e, In e x -> owidth o = 0%Z -> obuf (Int_print o e) = obuf o ++ Int_to_string e /\ owidth (Int_print o e) = 0%Z).
  { intros [b w f] e He Hw. cbn in Hw. subst w. specialize (Hx e He). unfold Int_to_string.
    destruct (PropsIO.C30_fill_exact_partial e b f Hx) as (s & T1 & E1). destruct (PropsIO.C30_fill_exact_partial e [] SPACE Hx) as (s' & T2 & E2).
    rewrite E1. change fresh_out with (mkOut [] 0 SPACE). rewrite E2. cbn. split; auto. f_equal. eapply canonical_text_unique; eauto. }
  destruct (C47_print _ Int_print Int_to_string fresh_out x G eq_refl) as (o & E & _ & B).
  exists o, (map Int_to_string x). splits; auto.
  clear -Hx. induction x as [|e x IH]; constructor.
  - destruct (PropsIO.C30_fill_exact_partial e [] SPACE (Hx e (or_introl eq_refl))) as (s' & T2 & E2).
    unfold Int_to_string. change fresh_out with (mkOut [] 0 SPACE). rewrite E2. exact T2.
  - apply IH. intros. apply Hx. right. auto.
Qed.
Example C47_ex : constantVec Int_ops 2 (I 7) = Ok [I 7; I 7] /\
  concatenate Int_ops [I 1] [I 2; I 3] = Ok [I 1; I 2; I 3] /\
  V_eq Int_ops [I 1; I 2] [I 1; I 3] = Ok false /\ V_eq int32_ops [1; 2]%Z [1; 2]%Z = Ok true /\
  setEntries_array Ok [I 1; I 2] [I 8; I 9; I 10] 1 = ([I 1; I 2], Throw InvalidArgument) /\
  setEntries_array Ok [I 1; I 2] [I 8; I 9; I 10] 3 = ([I 8; I 9], Ok tt) /\
  (o <- V_print Int_print fresh_out [I 1; I (-20); I 1000000007] ;; Ok (string_of_list_ascii (obuf o))) = Ok "(1, -20, 1000000007)"%string /\
  (o <- V_print Int_print fresh_out [] ;; Ok (string_of_list_ascii (obuf o))) = Ok "()"%string.
Proof. vm_compute. auto 10. Qed.
Print Assumptions C47_constantVec.
Print Assumptions C47_concatenate.
Print Assumptions C47_equal.
Print Assumptions C47_equal_int.
Print Assumptions C47_setEntries.
Print Assumptions C47_setEntries_val.
Print Assumptions C47_construct.
Print Assumptions C47_print.
Print Assumptions C47_print_int.
