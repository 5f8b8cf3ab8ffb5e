(** Property theorems about Mat: C48, C53, C60, C61. *)
From Coq Require Import QArith Ascii String.
From Verif Require Import Base IntModel IntSpec IntBasics IOModel IOSpec IOProofs FracModel FracSpec
  ElemModel ElemSpec ElemProofs ElemInst VecModel MatModel MatSpec MatProofs MatPrint PropsInt.
From Verif Require PropsIO PropsFrac.
Local Open Scope nat_scope.
Local Open Scope list_scope.

Definition I (k : Z) : Int := PropsFrac.i k.
Definition F (t b : Z) : Frac := PropsFrac.fr t b.
(** the r x c matrix with the given entries, row by row *)
Definition MI (r c : nat) (l : list Z) : Mat Int := mkMat r c (map (fun k => Some (I k)) l).
Definition MZ (r c : nat) (l : list Z) : Mat Z := mkMat r c (map Some l).

Lemma Int_div_exact x y a b : R_int x a -> R_int y b -> b <> 0%Z -> ret may_abort (div Int_ops x y) (fun z => R_int z (Z.quot a b)).
Proof.
  intros [Cx <-] [Cy <-] N. destruct (op_div_cases x y Cx Cy) as [[H _]|[(_ & _ & E)|(_ & _ & r & E & C & V)]]; [contradiction|apply ret_abort; auto|].
  left. exists r. split; auto. split; auto.
Qed.
Lemma Int_neg_exact x a : R_int x a -> ret never (neg Int_ops x) (fun z => R_int z (- a)).
Proof. intros [Cx <-]. destruct (op_neg_ok x (canonical_wf x Cx)) as (r & E & V & _ & _ & _ & _ & C). left. exists r. split; [exact E|]. split; [apply C, Cx|exact V]. Qed.

(** ** C48 *)
Theorem C48_add : forall T A (E : ops T) ab (R R' : T -> A -> Prop) f,
  binary_exact ab R (add E) f -> assign_exact ab R R R' (addA E) f ->
  forall x y r c r' c' g h, mat_of R x r c g -> mat_of R y r' c' h ->
  ((r, c) <> (r', c') -> M_add E x y = Throw DomainError /\ M_add_assign E x (Some y) = (x, Throw DomainError)) /\
  ((r, c) = (r', c') -> ret ab (M_add E x y) (fun d => mat_of R d r c (fun i j => f (g i j) (h i j))) /\
                        sret ab (M_add_assign E x (Some y)) (fun d => mat_of R' d r c (fun i j => f (g i j) (h i j)))) /\
  sret ab (M_add_assign E x None) (fun d => mat_of R' d r c (fun i j => f (g i j) (g i j))).
Proof.
  intros T A E ab R R' f Hb Ha x y r c r' c' g h Hx Hy. splits.
  - intros N. pose proof (mat_of_dims _ _ _ _ _ Hx). pose proof (mat_of_dims _ _ _ _ _ Hy). split.
    + eapply mat_binary_bad; eauto.
    + eapply mat_assign_bad; eauto.
  - intros [= <- <-]. split; [apply mat_binary_ok; auto|apply (mat_assign_ok ab R R' _ f x (Some y)); auto].
  - apply (mat_assign_ok ab R R' _ f x None r c g g); auto.
Qed.
Theorem C48_sub : forall T A (E : ops T) ab (R R' : T -> A -> Prop) f,
  binary_exact ab R (sub E) f -> assign_exact ab R R R' (subA E) f ->
  forall x y r c r' c' g h, mat_of R x r c g -> mat_of R y r' c' h ->
  ((r, c) <> (r', c') -> M_sub E x y = Throw DomainError /\ M_sub_assign E x (Some y) = (x, Throw DomainError)) /\
  ((r, c) = (r', c') -> ret ab (M_sub E x y) (fun d => mat_of R d r c (fun i j => f (g i j) (h i j))) /\
                        sret ab (M_sub_assign E x (Some y)) (fun d => mat_of R' d r c (fun i j => f (g i j) (h i j)))) /\
  sret ab (M_sub_assign E x None) (fun d => mat_of R' d r c (fun i j => f (g i j) (g i j))).
Proof.
  intros T A E ab R R' f Hb Ha x y r c r' c' g h Hx Hy. splits.
  - intros N. pose proof (mat_of_dims _ _ _ _ _ Hx). pose proof (mat_of_dims _ _ _ _ _ Hy). split.
    + eapply mat_binary_bad; eauto.
    + eapply mat_assign_bad; eauto.
  - intros [= <- <-]. split; [apply mat_binary_ok; auto|apply (mat_assign_ok ab R R' _ f x (Some y)); auto].
  - apply (mat_assign_ok ab R R' _ f x None r c g g); auto.
Qed.
Theorem C48_neg : forall T A (E : ops T) ab (R : T -> A -> Prop) f, (forall x a, R x a -> ret ab (neg E x) (fun z => R z (f a))) ->
  forall x r c g, mat_of R x r c g -> ret ab (M_neg E x) (fun d => mat_of R d r c (fun i j => f (g i j))).
Proof. intros. eapply M_neg_ok; eauto. Qed.
(** s * m, m * s and m *= s for a scalar outside the matrix *)
Theorem C48_scale : forall T A (E : ops T) ab (R S R' : T -> A -> Prop) f,
  binary_exact ab R (mul E) f -> assign_exact ab R S R' (mulA E) f ->
  forall x a r c g b, mat_of R x r c g ->
  (R a b -> ret ab (M_scale E a x) (fun d => mat_of R d r c (fun i j => f b (g i j))) /\
            ret ab (M_scale_r E x a) (fun d => mat_of R d r c (fun i j => f b (g i j)))) /\
  (S a b -> sret ab (M_mul_assign E x (MVal a)) (fun d => mat_of R' d r c (fun i j => f (g i j) b))).
Proof.
  intros T A E ab R S R' f Hb Ha x a r c g b Hx. split.
  - intros Hs. split; apply M_scale_ok; auto.
  - intros Hs. eapply mat_scale_val_ok; eauto.
Qed.
Theorem C48_divide : forall T A (E : ops T) ab (R S R' : T -> A -> Prop) f,
  (forall x y a b, R x a -> S y b -> ret ab (div E x y) (fun z => R' z (f a b))) -> assign_exact ab R S R' (divA E) f ->
  forall x a r c g b, mat_of R x r c g -> S a b ->
  ret ab (M_div E x a) (fun d => mat_of R' d r c (fun i j => f (g i j) b)) /\
  sret ab (M_div_assign E x (MVal a)) (fun d => mat_of R' d r c (fun i j => f (g i j) b)).
Proof.
  intros T A E ab R S R' f Hd Ha x a r c g b Hx Hs. split.
  - unfold M_div. destruct (mat_of_dims R x r c g Hx) as (-> & -> & _). apply fill_new. intros i j Hi Hj.
    eapply ret_bind; [apply (entry_of ab R x r c g i j); auto|]. intros e He. apply Hd; auto.
  - eapply mat_scale_val_ok; eauto.
Qed.
(** m *= m(p, q) and m /= m(p, q): the entries after (p, q), row by row, are scaled
    by the new entry *)
Theorem C48_scale_by_entry_refuted : exists m p q, p < rows m /\ q < cols m /\
  M_mul_assign int32_ops m (MElem p q) <> M_mul_assign int32_ops m (MVal 2%Z) /\ entry m p q = Ok 2%Z /\
  M_mul_assign int32_ops m (MElem p q) = (MZ 2 2 [2; 4; 12; 16]%Z, Ok tt) /\ m = MZ 2 2 [1; 2; 3; 4]%Z.
Proof. exists (MZ 2 2 [1; 2; 3; 4]%Z), 0, 1. vm_compute. splits; auto; discriminate. Qed.
Theorem C48_scale_by_entry_partial : forall T A (E : ops T) ab (R S R' : T -> A -> Prop) f, assign_exact ab R S R' (mulA E) f ->
  forall x r c g p q, mat_of R x r c g -> p < r -> q < c ->
  (forall e, R e (g p q) -> S e (g p q)) -> (forall e, R' e (f (g p q) (g p q)) -> S e (f (g p q) (g p q))) ->
  sret ab (M_mul_assign E x (MElem p q)) (fun d => mat_of R' d r c (fun i j =>
    f (g i j) (if (i * c + j <=? p * c + q)%nat then g p q else f (g p q) (g p q)))).
Proof.
  intros T A E ab R S R' f Ha x r c g p q Hx Hp Hq S1 S2. eapply sret_mono; [eapply mat_scale_elem_ok; eauto|]. intros d Hd.
  eapply mat_of_ext; [exact Hd|]. intros i j Hi Hj. cbn beta. f_equal. unfold before.
  destruct (Nat.leb_spec (i * c + j) (p * c + q)), (Nat.ltb_spec p i), (Nat.eqb_spec p i), (Nat.ltb_spec q j); cbn; auto; nia.
Qed.
Theorem C48_divide_by_entry_partial : forall T A (E : ops T) ab (R S R' : T -> A -> Prop) f, assign_exact ab R S R' (divA E) f ->
  forall x r c g p q, mat_of R x r c g -> p < r -> q < c ->
  (forall e, R e (g p q) -> S e (g p q)) -> (forall e, R' e (f (g p q) (g p q)) -> S e (f (g p q) (g p q))) ->
  sret ab (M_div_assign E x (MElem p q)) (fun d => mat_of R' d r c (fun i j =>
    f (g i j) (if (i * c + j <=? p * c + q)%nat then g p q else f (g p q) (g p q)))).
Proof.
  intros T A E ab R S R' f Ha x r c g p q Hx Hp Hq S1 S2. eapply sret_mono; [eapply mat_scale_elem_ok; eauto|]. intros d Hd.
  eapply mat_of_ext; [exact Hd|]. intros i j Hi Hj. cbn beta. f_equal. unfold before.
  destruct (Nat.leb_spec (i * c + j) (p * c + q)), (Nat.ltb_spec p i), (Nat.eqb_spec p i), (Nat.ltb_spec q j); cbn; auto; nia.
Qed.
(** the product; in a *= b, b may be a *)
Theorem C48_product : forall T A (E : ops T) ab (R : T -> A -> Prop) zero fadd fmul,
  R (of_int E 0) zero -> assign_exact ab R R R (addA E) fadd -> binary_exact ab R (mul E) fmul ->
  forall x y n m m' p g h, mat_of R x n m g -> mat_of R y m' p h ->
  (m <> m' -> M_product E x y = Throw DomainError /\ M_product_assign E x (Some y) = (x, Throw DomainError)) /\
  (m = m' -> ret ab (M_product E x y) (fun d => mat_of R d n p (fun i j => sum_to zero fadd m (fun k => fmul (g i k) (h k j)))) /\
             sret ab (M_product_assign E x (Some y)) (fun d => mat_of R d n p (fun i j => sum_to zero fadd m (fun k => fmul (g i k) (h k j))))) /\
  (n = m -> sret ab (M_product_assign E x None) (fun d => mat_of R d n n (fun i j => sum_to zero fadd n (fun k => fmul (g i k) (g k j))))) /\
  (n <> m -> M_product_assign E x None = (x, Throw DomainError)).
Proof.
  intros T A E ab R zero fadd fmul H0 Ha Hm x y n m m' p g h Hx Hy.
  pose proof (mat_of_dims _ _ _ _ _ Hx) as Dx. pose proof (mat_of_dims _ _ _ _ _ Hy) as Dy.
  assert (G : forall y' p h, mat_of R (rd x y') m p h ->
    sret ab (M_product_assign E x y') (fun d => mat_of R d n p (fun i j => sum_to zero fadd m (fun k => fmul (g i k) (h k j))))).
  { clear y p h Hy Dy. intros y p h Hy. unfold M_product_assign.
    destruct (M_product_ok E ab R zero fadd fmul H0 Ha Hm x (rd x y) n m p g h Hx Hy) as [(d & -> & Hd)|(hh & Hab & ->)]; [apply sret_done, Hd|destruct hh; apply (sret_stop ab x _ _ Hab)]. }
  splits.
  - intros N. assert (B : M_product E x y = Throw DomainError) by (eapply M_product_bad; eauto). split; auto.
    unfold M_product_assign. cbn [rd]. rewrite B. reflexivity.
  - intros <-. split; [eapply M_product_ok; eauto|]. apply (G (Some y)), Hy.
  - intros <-. apply (G None), Hx.
  - intros N. assert (B : M_product E x x = Throw DomainError) by (eapply M_product_bad; eauto).
    unfold M_product_assign. cbn [rd]. rewrite B. reflexivity.
Qed.
Theorem C48_transpose : forall T A (E : ops T) ab (R : T -> A -> Prop) x r c g, mat_of R x r c g ->
  ret ab (transpose E x) (fun d => mat_of R d c r (fun i j => g j i)).
Proof. intros. eapply transpose_ok; eauto. Qed.
Theorem C48_trace : forall T A (E : ops T) ab (R : T -> A -> Prop) zero fadd,
  R (of_int E 0) zero -> assign_exact ab R R R (addA E) fadd -> forall x r c g, mat_of R x r c g ->
  (r <> c -> trace E x = Throw DomainError) /\
  (r = c -> ret ab (trace E x) (fun t => R t (sum_to zero fadd r (fun i => g i i)))).
Proof.
  intros T A E ab R zero fadd H0 Ha x r c g Hx. split.
  - intros N. unfold trace. destruct (mat_of_dims _ _ _ _ _ Hx) as (-> & -> & _). apply Nat.eqb_neq in N. rewrite N. reflexivity.
  - intros <-. eapply trace_ok; eauto.
Qed.
(** Mat<Int>, spelled out: no failures but the domain errors *)
Theorem C48_int : forall x y r c g h, mat_of R_int x r c g -> mat_of R_int y r c h ->
  (exists d, M_add Int_ops x y = Ok d /\ mat_of R_int d r c (fun i j => g i j + h i j)%Z) /\
  (exists d, M_sub Int_ops x y = Ok d /\ mat_of R_int d r c (fun i j => g i j - h i j)%Z) /\
  (exists d, M_neg Int_ops x = Ok d /\ mat_of R_int d r c (fun i j => - g i j)%Z) /\
  (exists d, M_add_assign Int_ops x None = (d, Ok tt) /\ mat_of R_int d r c (fun i j => 2 * g i j)%Z) /\
  (exists d, M_sub_assign Int_ops x None = (d, Ok tt) /\ mat_of R_int d r c (fun i j => 0)%Z) /\
  (forall a, canonical a -> exists d, M_scale Int_ops a x = Ok d /\ mat_of R_int d r c (fun i j => val a * g i j)%Z) /\
  (forall a, canonical a -> exists d, M_mul_assign Int_ops x (MVal a) = (d, Ok tt) /\ mat_of R_int0 d r c (fun i j => g i j * val a)%Z) /\
  (forall a, canonical a -> val a <> 0%Z -> M_div Int_ops x a = Abort \/
     exists d, M_div Int_ops x a = Ok d /\ mat_of R_int d r c (fun i j => Z.quot (g i j) (val a))) /\
  (exists d, transpose Int_ops x = Ok d /\ mat_of R_int d c r (fun i j => g j i)).
Proof.
  intros x y r c g h Hx Hy.
  assert (fstsnd : forall (p : outcome (Mat Int)), snd p = Ok tt -> p = (fst p, Ok tt)) by (intros [u v] H; cbn in *; congruence).
  destruct (C48_add _ _ Int_ops never R_int R_int _ Int_add_exact Int_addA_exact x y _ _ _ _ _ _ Hx Hy) as (_ & A1 & A2).
  destruct (C48_sub _ _ Int_ops never R_int R_int _ Int_sub_exact Int_subA_exact x y _ _ _ _ _ _ Hx Hy) as (_ & S1 & S2).
  destruct (A1 eq_refl) as [A3 _]. destruct (S1 eq_refl) as [S3 _]. apply sret_False in A2 as [A2 A2']. apply sret_False in S2 as [S2 S2'].
  splits.
  - exact (ret_False _ _ A3).
  - exact (ret_False _ _ S3).
  - exact (ret_False _ _ (C48_neg _ _ Int_ops never R_int _ Int_neg_exact x r c g Hx)).
  - exists (fst (M_add_assign Int_ops x None)). split; [apply fstsnd, A2|]. eapply mat_of_ext; [exact A2'|]. intros; cbn beta; lia.
  - exists (fst (M_sub_assign Int_ops x None)). split; [apply fstsnd, S2|]. eapply mat_of_ext; [exact S2'|]. intros; cbn beta; lia.
  - intros a Ha. destruct (C48_scale _ _ Int_ops never R_int R_int R_int0 _ Int_mul_exact Int_mulA_exact x a r c g (val a) Hx) as [H _].
    destruct (H (conj Ha eq_refl)) as [H' _]. exact (ret_False _ _ H').
  - intros a Ha. destruct (C48_scale _ _ Int_ops never R_int R_int R_int0 _ Int_mul_exact Int_mulA_exact x a r c g (val a) Hx) as [_ H].
    destruct (sret_False _ _ (H (conj Ha eq_refl))) as [H1 H2]. eexists. split; [apply fstsnd, H1|exact H2].
  - intros a Ha N.
    destruct (C48_divide _ _ Int_ops may_abort R_int _ R_int _
      (fun u v p q Hu (Hv : nonzero R_int (fun a => a = 0%Z) v q) => Int_div_exact u v p q Hu (proj1 Hv) (proj2 Hv)) Int_divA_exact
      x a r c g (val a) Hx (conj (conj Ha eq_refl) N)) as [H _]; apply ret_abort in H as [(d & E & H)|E]; eauto.
  - exact (ret_False _ _ (C48_transpose _ _ Int_ops never R_int x r c g Hx)).
Qed.
Definition Zsum (n : nat) (g : nat -> Z) : Z := sum_to 0%Z Z.add n g.
Theorem C48_int_product : forall x y n m p g h, mat_of R_int x n m g -> mat_of R_int y m p h ->
  (exists d, M_product Int_ops x y = Ok d /\ mat_of R_int d n p (fun i j => Zsum m (fun k => g i k * h k j)%Z)) /\
  (n = m -> exists d t, M_product_assign Int_ops x None = (d, Ok tt) /\ mat_of R_int d n n (fun i j => Zsum n (fun k => g i k * g k j)%Z) /\
     trace Int_ops x = Ok t /\ canonical t /\ val t = Zsum n (fun i => g i i)).
Proof.
  intros x y n m p g h Hx Hy.
  destruct (C48_product _ _ Int_ops never R_int 0%Z Z.add Z.mul (Int_const_exact 0 ltac:(lia)) Int_addA_exact Int_mul_exact
    x y n m m p g h Hx Hy) as (_ & H1 & H2 & _). destruct (H1 eq_refl) as [H3 _]. split; [exact (ret_False _ _ H3)|].
  intros N. destruct (sret_False _ _ (H2 N)) as [H4 H5].
  destruct (C48_trace _ _ Int_ops never R_int 0%Z Z.add (Int_const_exact 0 ltac:(lia)) Int_addA_exact x n m g Hx) as [_ H6].
  destruct (ret_False _ _ (H6 N)) as (t & E & C & V). exists (fst (M_product_assign Int_ops x None)), t. splits; auto.
  destruct (M_product_assign Int_ops x None); cbn in *; congruence.
Qed.
Example C48_ex : M_add Int_ops (MI 1 2 [999999999; 2]%Z) (MI 1 2 [1; -3]%Z) = Ok (MI 1 2 [1000000000; -1]%Z) /\
  M_add Int_ops (MI 1 2 [1; 2]%Z) (MI 2 1 [1; 2]%Z) = Throw DomainError /\
  M_product int32_ops (MZ 2 3 [1; 2; 3; 4; 5; 6]%Z) (MZ 3 2 [1; 0; 0; 1; 2; 2]%Z) = Ok (MZ 2 2 [7; 8; 16; 17]%Z) /\
  M_product_assign int32_ops (MZ 2 2 [1; 1; 1; 0]%Z) None = (MZ 2 2 [2; 1; 1; 1]%Z, Ok tt) /\
  M_product_assign int32_ops (MZ 1 2 [1; 1]%Z) None = (MZ 1 2 [1; 1]%Z, Throw DomainError) /\
  transpose int32_ops (MZ 2 3 [1; 2; 3; 4; 5; 6]%Z) = Ok (MZ 3 2 [1; 4; 2; 5; 3; 6]%Z) /\
  trace int32_ops (MZ 2 2 [1; 2; 3; 4]%Z) = Ok 5%Z /\ trace int32_ops (MZ 1 2 [1; 2]%Z) = Throw DomainError /\
  M_div int32_ops (MZ 1 2 [7; -7]%Z) 2%Z = Ok (MZ 1 2 [3; -3]%Z).
Proof. vm_compute. auto 10. Qed.
(** Writing one past the end is undefined; assignment takes the operand's size. *)
Example C48_ex_assign : M_assign int32_ops (MZ 1 2 [1; 2]%Z) (Some (MZ 2 1 [3; 4]%Z)) = (MZ 2 1 [3; 4]%Z, Ok tt) /\
  M_assign int32_ops (MZ 1 2 [1; 2]%Z) None = (MZ 1 2 [1; 2]%Z, Ok tt) /\
  set_entry (MZ 1 2 [1; 2]%Z) 0 2 9%Z = (MZ 1 2 [1; 2]%Z, UB) /\ set_entry (MZ 1 2 [1; 2]%Z) 0 1 9%Z = (MZ 1 2 [1; 9]%Z, Ok tt).
Proof. vm_compute. auto. Qed.
Print Assumptions C48_add.
Print Assumptions C48_sub.
Print Assumptions C48_neg.
Print Assumptions C48_scale.
Print Assumptions C48_divide.
Print Assumptions C48_scale_by_entry_refuted.
Print Assumptions C48_scale_by_entry_partial.
Print Assumptions C48_divide_by_entry_partial.
Print Assumptions C48_product.
Print Assumptions C48_transpose.
Print Assumptions C48_trace.
Print Assumptions C48_int.
Print Assumptions C48_int_product.

(** ** C53 *)
Theorem C53_refuted : exists m, mat_of R_int m 3 3 (fun i j => nth (3 * i + j) [2; 1; 0; 1; 2; 1; 0; 1; 2]%Z 0%Z) /\
  determinant Int_ops m = Ok (I 8) /\ row_cofactor_expansion Int_ops m = Ok (I 4) /\ col_cofactor_expansion Int_ops m = Ok (I 4).
Proof.
  exists (MI 3 3 [2; 1; 0; 1; 2; 1; 0; 1; 2]%Z). split; [|vm_compute; auto].
  split; [reflexivity|]. split; [reflexivity|]. split; [reflexivity|]. intros i j Hi Hj.
  exists (I (nth (3 * i + j) [2; 1; 0; 1; 2; 1; 0; 1; 2]%Z 0%Z)).
  destruct i as [|[|[|i]]]; try lia; (destruct j as [|[|[|j]]]; try lia);
    (split; [vm_compute; reflexivity|]); cbn [nth Nat.mul Nat.add]; (split; [PropsFrac.exc|vm_compute; reflexivity]).
Qed.
(** sizes 1 and 2 use the formulas *)
Theorem C53_small_partial : forall m g,
  (mat_of R_int m 1 1 g -> exists d, determinant Int_ops m = Ok d /\ R_int d (g 0 0)) /\
  (mat_of R_int m 2 2 g -> exists d, determinant Int_ops m = Ok d /\ R_int d (Z.sub (Z.mul (g 0 0) (g 1 1)) (Z.mul (g 0 1) (g 1 0)))).
Proof.
  intros m g. split; intros Hm; unfold determinant; destruct (mat_of_dims _ _ _ _ _ Hm) as (Dr & Dc & _); rewrite Dr, Dc; cbn [Nat.eqb negb].
  - destruct Hm as (_ & _ & _ & H). destruct (H 0 0) as (x & E & Hx); auto. exists x. unfold read. cbn [Nat.mul Nat.add] in E. rewrite E. auto.
  - destruct Hm as (_ & _ & _ & H). unfold det2, read.
    destruct (H 0 0) as (a & Ea & Ha); auto. destruct (H 0 1) as (b & Eb & Hb); auto.
    destruct (H 1 0) as (c & Ec & Hc); auto. destruct (H 1 1) as (d & Ed & Hd); auto. cbn [Nat.mul Nat.add] in *. rewrite Ea, Ed, Eb, Ec.
    cbn [bind]. destruct (ret_False _ _ (Int_mul_exact _ _ _ _ Ha Hd)) as (p & -> & Hp). cbn [bind].
    destruct (ret_False _ _ (Int_mul_exact _ _ _ _ Hb Hc)) as (q & -> & Hq). cbn [bind].
    destruct (ret_False _ _ (Int_sub_exact _ _ _ _ Hp Hq)) as (r & -> & Hr). eauto.
Qed.
Example C53_ex : determinant Int_ops (MI 2 2 [1000000000; 7; 3; 2000000000]%Z) = Ok (I 1999999999999999979) /\
  determinant Int_ops (MI 3 3 [1; 2; 3; 0; 4; 5; 0; 0; 6]%Z) = Ok (I 24) /\ determinant Int_ops (MI 1 2 [1; 2]%Z) = Throw DomainError.
Proof. vm_compute. auto. Qed.
Print Assumptions C53_refuted.
Print Assumptions C53_small_partial.

(** ** C60 *)
Theorem C60_construct : forall T A (E : ops T) ab (R : T -> A -> Prop),
  (forall r c v a, R v a -> ret ab (Mat_val E r c v) (fun m => mat_of R m r c (fun _ _ => a))) /\
  (forall vals r c g, (forall k, k < r * c -> exists x, nth_error vals k = Some (Some x) /\ R x (g (k / c) (k mod c))) ->
     ret ab (Mat_array E vals r c) (fun m => mat_of R m r c g)) /\
  (forall m r c g, mat_of R m r c g -> ret ab (Mat_copy E m) (fun d => mat_of R d r c g)) /\
  (forall this a r c g, mat_of R (rd this a) r c g -> sret ab (M_assign E this a) (fun d => mat_of R d r c g)).
Proof.
  intros T A E ab R. splits.
  - intros. apply Mat_val_ok; auto.
  - intros vals r c g H. apply Mat_array_ok. intros i j Hi Hj. destruct (H (i * c + j)) as (x & Ex & Hx); [apply offset_lt; auto|].
    rewrite Nat.div_add_l, Nat.div_small, Nat.add_0_r in Hx by lia. rewrite Nat.add_comm, Nat.mod_add, Nat.mod_small in Hx by lia.
    left. exists x. unfold read. rewrite Ex. auto.
  - intros. apply Mat_copy_ok; auto.
  - intros. apply M_assign_ok; auto.
Qed.
Theorem C60_setEntries : forall T A ab (R : T -> A -> Prop) m vals size r c g, dims m r c ->
  (size < r * c -> setEntries_ptr m vals size = (m, Throw DomainError)) /\
  (r * c <= size -> (forall i j, i < r -> j < c -> exists x, nth_error vals (i * c + j) = Some (Some x) /\ R x (g i j)) ->
   sret ab (setEntries_ptr m vals size) (fun d => mat_of R d r c g)).
Proof.
  intros T A ab R m vals size r c g D. split.
  - intros H. eapply setEntries_bad; eauto.
  - intros H Hv. apply setEntries_ptr_ok; auto. intros i j Hi Hj. destruct (Hv i j Hi Hj) as (x & Ex & Hx).
    left. exists x. unfold read. rewrite Ex. auto.
Qed.
Theorem C60_special : forall T A (E : ops T) ab (R : T -> A -> Prop) zero one, R (of_int E 0) zero -> R (of_int E 1) one ->
  (forall n, ret ab (identityMatrix E n) (fun m => mat_of R m n n (fun i j => if i =? j then one else zero))) /\
  (forall vals n v, (forall i, i < n -> exists x, nth_error vals i = Some (Some x) /\ R x (v i)) ->
     ret ab (diagonalMatrix E vals n) (fun m => mat_of R m n n (fun i j => if i =? j then v i else zero))).
Proof.
  intros T A E ab R zero one H0 H1. split.
  - intros. apply identityMatrix_ok; auto.
  - intros vals n v Hv. apply diagonalMatrix_ok; auto. intros i Hi. destruct (Hv i Hi) as (x & Ex & Hx).
    left. exists x. unfold read. rewrite Ex. auto.
Qed.
Theorem C60_augmented : forall T A (E : ops T) ab (R : T -> A -> Prop) a b n c n' d g h, mat_of R a n c g -> mat_of R b n' d h ->
  (n <> n' -> augmentedMatrix E a b = Throw DomainError) /\
  (n = n' -> ret ab (augmentedMatrix E a b) (fun m => mat_of R m n (c + d) (fun i j => if j <? c then g i j else h i (j - c)))).
Proof.
  intros T A E ab R a b n c n' d g h Ha Hb. split.
  - intros N. eapply augmentedMatrix_bad; eauto; eapply mat_of_dims; eauto.
  - intros <-. apply augmentedMatrix_ok; auto.
Qed.
(** the i-th row and j-th column are left out; cofactor also changes the sign *)
Theorem C60_minor : forall T A (E : ops T) ab (R : T -> A -> Prop) m r c g i j, mat_of R m r c g -> 0 < r -> 0 < c ->
  ret ab (first_minor E m i j) (fun d => mat_of R d (r - 1) (c - 1) (fun a b => g (if a <? i then a else S a) (if b <? j then b else S b))) /\
  (forall fneg, (forall x a, R x a -> ret ab (neg E x) (fun z => R z (fneg a))) ->
     ret ab (cofactor E m i j) (fun d => mat_of R d (r - 1) (c - 1) (fun a b =>
       let v := g (if a <? i then a else S a) (if b <? j then b else S b) in if Nat.odd (i + j) then fneg v else v))).
Proof.
  intros T A E ab R m r c g i j Hm Hr Hc.
  assert (Sk : forall i a, (if a <? i then a else S a) = skip i a).
  { intros k a. unfold skip. destruct (Nat.ltb_spec a k), (Nat.leb_spec k a); lia. }
  split.
  - eapply ret_mono; [apply (first_minor_ok E ab R m r c g i j); auto|]. intros d Hd. eapply mat_of_ext; [exact Hd|]. intros. cbn beta. rewrite !Sk. reflexivity.
  - intros fneg Hn. eapply ret_mono; [apply (cofactor_ok E ab R fneg m r c g i j); auto|].
    intros d Hd. eapply mat_of_ext; [exact Hd|]. intros. cbn beta zeta. rewrite !Sk. reflexivity.
Qed.
Theorem C60_equal : forall T A (E : ops T) ab (R : T -> A -> Prop) (eqA : A -> A -> Prop),
  (forall x y a b, R x a -> R y b -> ret ab (eqb E x y) (fun r => r = true <-> eqA a b)) ->
  forall x y r c r' c' g h, mat_of R x r c g -> mat_of R y r' c' h ->
  ret ab (M_eq E x y) (fun e => e = true <-> (r, c) = (r', c') /\ forall i j, i < r -> j < c -> eqA (g i j) (h i j)) /\
  ret ab (M_ne E x y) (fun e => e = true <-> ~ ((r, c) = (r', c') /\ forall i j, i < r -> j < c -> eqA (g i j) (h i j))).
Proof.
  intros T A E ab R eqA He x y r c r' c' g h Hx Hy.
  assert (G : ret ab (M_eq E x y) (fun e => e = true <-> (r, c) = (r', c') /\ forall i j, i < r -> j < c -> eqA (g i j) (h i j))).
  { destruct (Nat.eq_dec r r') as [<-|N1]; [destruct (Nat.eq_dec c c') as [<-|N2]|].
    - eapply ret_mono; [eapply M_eq_ok; eauto|]. intros e ->. tauto.
    - left. exists false. split; [eapply M_eq_bad; [eapply mat_of_dims; eauto|eapply mat_of_dims; eauto|congruence]|].
      split; [discriminate|]. intros [[= ->] _]. congruence.
    - left. exists false. split; [eapply M_eq_bad; [eapply mat_of_dims; eauto|eapply mat_of_dims; eauto|congruence]|].
      split; [discriminate|]. intros [[= -> _] _]. congruence. }
  split; auto. unfold M_ne. eapply ret_bind; [exact G|]. intros e H. cbn beta in H. apply ret_ok. rewrite <- H. destruct e; cbn; intuition congruence.
Qed.
Example C60_ex : Mat_val int32_ops 2 2 7%Z = Ok (MZ 2 2 [7; 7; 7; 7]%Z) /\
  identityMatrix Int_ops 2 = Ok (MI 2 2 [1; 0; 0; 1]%Z) /\ diagonalMatrix int32_ops [Some 4; Some 5]%Z 2 = Ok (MZ 2 2 [4; 0; 0; 5]%Z) /\
  augmentedMatrix int32_ops (MZ 2 1 [1; 2]%Z) (MZ 2 2 [3; 4; 5; 6]%Z) = Ok (MZ 2 3 [1; 3; 4; 2; 5; 6]%Z) /\
  augmentedMatrix int32_ops (MZ 2 1 [1; 2]%Z) (MZ 1 2 [3; 4]%Z) = Throw DomainError /\
  first_minor int32_ops (MZ 3 3 [1; 2; 3; 4; 5; 6; 7; 8; 9]%Z) 0 1 = Ok (MZ 2 2 [4; 6; 7; 9]%Z) /\
  cofactor int32_ops (MZ 3 3 [1; 2; 3; 4; 5; 6; 7; 8; 9]%Z) 0 1 = Ok (MZ 2 2 [-4; -6; -7; -9]%Z) /\
  M_eq Int_ops (MI 1 2 [1; 2]%Z) (MI 2 1 [1; 2]%Z) = Ok false /\ M_eq Int_ops (MI 1 2 [1; 2]%Z) (MI 1 2 [1; 2]%Z) = Ok true /\
  setEntries_ptr (MZ 1 2 [1; 2]%Z) [Some 9]%Z 1 = (MZ 1 2 [1; 2]%Z, Throw DomainError).
Proof. vm_compute. auto 12. Qed.
Print Assumptions C60_construct.
Print Assumptions C60_setEntries.
Print Assumptions C60_special.
Print Assumptions C60_augmented.
Print Assumptions C60_minor.
Print Assumptions C60_equal.

(** ** C61 *)
Theorem C61_print : forall T A (E : ops T) (R : T -> A -> Prop) (pr : ostream -> T -> ostream) (txt : A -> list ascii),
  (forall o x a, R x a -> owidth o = 0%Z -> obuf (pr o x) = obuf o ++ txt a /\ owidth (pr o x) = 0%Z) ->
  forall o m r c g, mat_of R m r c g -> owidth o = 0%Z ->
  exists o', M_print E pr o m = Ok o' /\ owidth o' = 0%Z /\ obuf o' = obuf o ++ mat_text r c (fun i j => txt (g i j)).
Proof. exact @M_print_ok. Qed.
(** Mat<Int>: the texts are the canonical decimal numerals *)
Theorem C61_print_int : forall o m r c g, mat_of R_int m r c g -> owidth o = 0%Z -> exists o' t,
  M_print Int_ops Int_print o m = Ok o' /\ owidth o' = 0%Z /\ obuf o' = obuf o ++ mat_text r c t /\
  forall i j, i < r -> j < c -> canonical_text (t i j) (g i j).
Proof.
  intros o m r c g Hm Ho.
  set (R x (s : list ascii) := canonical x /\ canonical_text s (val x)).
  assert (HR : forall x, canonical x -> R x (Int_to_string x)).
  { intros x Hx. split; auto. destruct (PropsIO.C30_fill_exact_partial x [] SPACE Hx) as (s & T2 & E2).
    unfold Int_to_string. change fresh_out with (mkOut [] 0 SPACE). rewrite E2. exact T2. }
  set (t i j := match entry m i j with Ok x => Int_to_string x | _ => [] end).
  assert (Hm' : mat_of R m r c t).
  { destruct Hm as (Dr & Dc & L & H). unfold mat_of. splits; auto. intros i j Hi Hj. destruct (H i j Hi Hj) as (x & Ex & Cx & Vx).
    exists x. split; auto. unfold t, entry, read, offset. rewrite Dc, Ex. apply HR, Cx. }
  destruct (C61_print _ _ Int_ops R Int_print (fun s => s)) with (o := o) (m := m) (r := r) (c := c) (g := t) as (o' & E & W & Bf); auto.
  - intros [b w f] x s [Cx Hs] W. cbn in W. subst w. destruct (PropsIO.C30_fill_exact_partial x b f Cx) as (s' & T2 & E2).
    rewrite E2. cbn. split; auto. f_equal. eapply canonical_text_unique; eauto.
  - exists o', t. splits; auto. intros i j Hi Hj. destruct Hm as (Dr & Dc & L & H). destruct (H i j Hi Hj) as (x & Ex & Cx & <-).
    unfold t, entry, read, offset. rewrite Dc, Ex. apply HR, Cx.
Qed.
Example C61_ex : (o <- M_print Int_ops Int_print fresh_out (MI 2 2 [1; -2; 1000000007; 0]%Z) ;; Ok (string_of_list_ascii (obuf o))) =
  Ok (String.append "1 -2 " (String (ascii_of_nat 10) "1000000007 0 ")) /\
  (o <- M_print Int_ops Int_print fresh_out (MI 0 3 []) ;; Ok (obuf o)) = Ok [] /\
  string_of_list_ascii (mat_text 1 2 (fun i j => ["x"%char])) = "x x "%string.
Proof. vm_compute. auto. Qed.
Print Assumptions C61_print.
Print Assumptions C61_print_int.
