(** Which algebraic laws the operations of Vec<double> and Mat<double> obey, bit for bit. *)
From Coq Require Import SpecFloat Lia Reals.
From Flocq Require Import Core BinarySingleNaN.
From Verif Require Import Base IntModel IntBasics FracModel FracSpec CommonModel CommonSpec CommonProofs ElemModel ElemSpec ElemProofs VecModel VecProofs
  MatModel MatSpec MatProofs DoubleModel DoubleSpec DoubleProofs DoubleVec DoubleRange DoubleMat.
#[local] Existing Instances Hprec Hmax Vexp.
Local Open Scope nat_scope.

(** *** Commutativity of the operators *)
Lemma SFadd_comm x y : SFadd 53 1024 x y = SFadd 53 1024 y x.
Proof.
  destruct x as [s|s| |s m e], y as [t|t| |t n f]; try reflexivity; try (destruct s, t; reflexivity).
  cbn [SFadd]. rewrite (Z.min_comm e f), Z.add_comm. reflexivity.
Qed.
Lemma SFmul_comm x y : SFmul 53 1024 x y = SFmul 53 1024 y x.
Proof.
  destruct x as [s|s| |s m e], y as [t|t| |t n f]; cbn [SFmul]; rewrite ?(xorb_comm s t); try reflexivity.
  rewrite (Pos.mul_comm m n), (Z.add_comm e f). reflexivity.
Qed.
Lemma dsub_swap x y : double x -> double y -> finite x -> finite y -> SFeqb (dsub x y) (SFopp (dsub y x)) = true.
Proof.
  intros Dx Dy Fx Fy. destruct (lift_finite x Dx Fx) as (a & <- & Fa). destruct (lift_finite y Dy Fy) as (b & <- & Fb).
  rewrite !dsub_equiv, opp_equiv, eqb_equiv.
  pose proof (Bminus_correct 53 1024 Hprec Hmax mode_NE a b Fa Fb) as C. pose proof (Bminus_correct 53 1024 Hprec Hmax mode_NE b a Fb Fa) as D.
  replace (B2R b - B2R a)%R with (- (B2R a - B2R b))%R in D by ring. rewrite rnd_opp, Rabs_Ropp in D.
  destruct (Rlt_bool _ _).
  - destruct C as (C1 & C2 & _). destruct D as (D1 & D2 & _). rewrite Beqb_correct by (rewrite ?is_finite_Bopp; auto). rewrite B2R_Bopp, C1, D1. apply Req_bool_true. ring.
  - destruct C as (C1 & C2). destruct D as (D1 & _). rewrite overflow_sign in C1, D1.
    assert (A : Bminus mode_NE a b = B754_infinity (Bsign a)) by (apply B2SF_inj; rewrite C1; reflexivity).
    assert (B : Bminus mode_NE b a = B754_infinity (Bsign b)) by (apply B2SF_inj; rewrite D1; reflexivity). rewrite A, B, C2. destruct (Bsign b); reflexivity.
Qed.
Lemma dsub_self x : double x -> (finite x -> dsub x x = S754_zero false) /\ (~ finite x -> dsub x x = S754_nan).
Proof.
  intros D. split.
  - intros F. destruct (lift_finite x D F) as (a & <- & Fa). rewrite dsub_equiv. pose proof (Bminus_correct 53 1024 Hprec Hmax mode_NE a a Fa Fa) as C.
    rewrite Rminus_diag_eq, round_0, Rabs_R0, Rlt_bool_true in C by (auto with typeclass_instances; apply bpow_gt_0).
    destruct C as (C1 & C2 & C3). rewrite Rcompare_Eq in C3 by reflexivity.
    assert (S : Bsign (Bminus mode_NE a a) = false) by (rewrite C3; destruct (Bsign a); reflexivity).
    change (S754_zero false) with (B2SF zero). f_equal. apply zero_of_R; auto.
  - intros F. destruct x as [s|s| |s m e]; try (exfalso; apply F; exact I); [|reflexivity]. destruct s; reflexivity.
Qed.

(** *** What the loops compute, on any doubles *)
Definition same (x y : spec_float) : Prop := x = y.
Lemma addA_same : assign_exact never same same same (addA double_ops) (SFadd 53 1024).
Proof. split; [intros x y a b -> ->|intros x a -> _]; apply ret_ok; reflexivity. Qed.
Lemma subA_same : assign_exact never same same same (subA double_ops) dsub.
Proof. split; [intros x y a b -> ->|intros x a -> _]; apply ret_ok; reflexivity. Qed.
Lemma add_same : binary_exact never same (add double_ops) (SFadd 53 1024).
Proof. intros x y a b -> ->. apply ret_ok. reflexivity. Qed.
Lemma mul_same : binary_exact never same (mul double_ops) (SFmul 53 1024).
Proof. intros x y a b -> ->. apply ret_ok. reflexivity. Qed.
Lemma sub_same : binary_exact never same (sub double_ops) dsub.
Proof. intros x y a b -> ->. apply ret_ok. reflexivity. Qed.
Lemma seq_same x n : length x = n -> seq_of same x n (fun i => nth i x S754_nan).
Proof. intros <-. split; auto. intros i Hi. exists (nth i x S754_nan). split; [apply nth_error_nth'; auto|reflexivity]. Qed.
Lemma seq_same_eq x y n v : seq_of same x n v -> seq_of same y n v -> x = y.
Proof.
  intros [L H] [L' H']. apply list_ext; [congruence|]. intros i Hi. destruct (H i) as (a & E & A); [lia|]. destruct (H' i) as (b & E' & B); [lia|].
  rewrite E, E', A, B. reflexivity.
Qed.
Lemma sum_ext {A} (z : A) f n g h : (forall i, i < n -> g i = h i) -> sum_to z f n g = sum_to z f n h.
Proof. induction n as [|n IH]; intros H; cbn [sum_to]; [reflexivity|]. rewrite IH, H; auto. Qed.
Lemma V_add_comm x y : V_add double_ops x y = V_add double_ops y x.
Proof.
  destruct (Nat.eq_dec (length x) (length y)) as [L|N].
  2:{ unfold V_add. rewrite (vec_binary_bad _ x y N), (vec_binary_bad _ y x) by auto. reflexivity. }
  pose proof (seq_same x (length y) L) as Sx. pose proof (seq_same y (length y) eq_refl) as Sy.
  destruct (ret_False _ _ (vec_binary_ok never same same (addA double_ops) (SFadd 53 1024) x y _ _ _ addA_same Sx Sy)) as (z & E & Hz).
  destruct (ret_False _ _ (vec_binary_ok never same same (addA double_ops) (SFadd 53 1024) y x _ _ _ addA_same Sy Sx)) as (z' & E' & Hz').
  unfold V_add. rewrite E, E'. f_equal. apply (seq_same_eq _ _ _ _ Hz). destruct Hz' as [L' Hz']. split; [exact L'|]. intros i Hi. destruct (Hz' i Hi) as (e & Ee & He).
  exists e. split; [exact Ee|]. rewrite SFadd_comm. exact He.
Qed.
Lemma dot_comm x y : dot double_ops x y = dot double_ops y x.
Proof.
  destruct (Nat.eq_dec (length x) (length y)) as [L|N].
  2:{ rewrite (dot_bad _ x y N), (dot_bad _ y x) by auto. reflexivity. }
  pose proof (seq_same x (length y) L) as Sx. pose proof (seq_same y (length y) eq_refl) as Sy.
  destruct (ret_False _ _ (dot_ok double_ops never same (of_int double_ops 0) (SFadd 53 1024) (SFmul 53 1024) eq_refl addA_same mul_same x y _ _ _ Sx Sy)) as (d & E & Hd).
  destruct (ret_False _ _ (dot_ok double_ops never same (of_int double_ops 0) (SFadd 53 1024) (SFmul 53 1024) eq_refl addA_same mul_same y x _ _ _ Sy Sx)) as (d' & E' & Hd').
  rewrite E, E'. f_equal. rewrite Hd, Hd'. apply sum_ext. intros i _. apply SFmul_comm.
Qed.
Lemma filled_list r c (l : list spec_float) : length l = r * c -> filled (mkMat r c (map Some l)) r c.
Proof.
  intros L. exists (fun i j => nth (i * c + j) l S754_nan). split; [reflexivity|]. split; [reflexivity|]. cbn [data]. split; [rewrite map_length; exact L|].
  intros i j Hi Hj. pose proof (offset_lt r c i j Hi Hj) as H. exists (nth (i * c + j) l S754_nan). split; [|reflexivity].
  rewrite nth_error_map, (nth_error_nth' l S754_nan) by lia. reflexivity.
Qed.
Lemma mat_same_eq (x y : Mat spec_float) r c g : mat_of same x r c g -> mat_of same y r c g -> x = y.
Proof.
  intros (R1 & C1 & L1 & H1) (R2 & C2 & L2 & H2). destruct x as [r1 c1 d1], y as [r2 c2 d2]. cbn [rows cols data] in *. subst r1 c1 r2 c2. f_equal.
  apply list_ext; [congruence|]. intros k Hk. rewrite L1 in Hk. destruct (Nat.eq_dec c 0) as [->|Nc]; [lia|].
  assert (E : k = k / c * c + k mod c) by (rewrite Nat.mul_comm; apply Nat.div_mod, Nc). assert (Hi : k / c < r) by (apply Nat.div_lt_upper_bound; [exact Nc|]; rewrite Nat.mul_comm; exact Hk).
  assert (Hj : k mod c < c) by (apply Nat.mod_upper_bound, Nc). rewrite E. destruct (H1 _ _ Hi Hj) as (a & -> & ->). destruct (H2 _ _ Hi Hj) as (b & -> & ->). reflexivity.
Qed.
Lemma M_add_comm x y r c : filled x r c -> filled y r c -> M_add double_ops x y = M_add double_ops y x.
Proof.
  intros [g Hx] [h Hy].
  destruct (ret_False _ _ (mat_binary_ok double_ops never same _ _ x y r c g h add_same Hx Hy)) as (z & E & Hz).
  destruct (ret_False _ _ (mat_binary_ok double_ops never same _ _ y x r c h g add_same Hy Hx)) as (z' & E' & Hz').
  unfold M_add. rewrite E, E'. f_equal. apply (mat_same_eq _ _ _ _ _ Hz). apply (mat_of_ext _ _ _ _ _ _ Hz'). intros. apply SFadd_comm.
Qed.
Lemma product_transpose x y n m p : filled x n m -> filled y m p ->
  (z <- M_product double_ops x y ;; transpose double_ops z) = (a <- transpose double_ops y ;; b <- transpose double_ops x ;; M_product double_ops a b).
Proof.
  intros [g Hx] [h Hy]. set (zero := of_int double_ops 0).
  destruct (ret_False _ _ (M_product_ok double_ops never same zero (SFadd 53 1024) (SFmul 53 1024) eq_refl addA_same mul_same x y n m p g h Hx Hy)) as (z & -> & Hz).
  destruct (ret_False _ _ (transpose_ok double_ops never same y m p h Hy)) as (a & -> & Ha).
  destruct (ret_False _ _ (transpose_ok double_ops never same x n m g Hx)) as (b & -> & Hb). cbn [bind].
  destruct (ret_False _ _ (transpose_ok double_ops never same z n p _ Hz)) as (t & -> & Ht).
  destruct (ret_False _ _ (M_product_ok double_ops never same zero (SFadd 53 1024) (SFmul 53 1024) eq_refl addA_same mul_same a b p m n _ _ Ha Hb)) as (w & -> & Hw).
  f_equal. apply (mat_same_eq _ _ _ _ _ Ht). apply (mat_of_ext _ _ _ _ _ _ Hw). intros i j _ _. apply sum_ext. intros k _. apply SFmul_comm.
Qed.

(** *** Cross products *)
Definition product3 (x y : list spec_float) (i j : nat) : spec_float := SFmul 53 1024 (nth i x S754_nan) (nth j y S754_nan).
Lemma cross_same x y : length x = 3 -> length y = 3 -> cross double_ops x y =
  Ok [dsub (product3 x y 1 2) (product3 x y 2 1); dsub (product3 x y 2 0) (product3 x y 0 2); dsub (product3 x y 0 1) (product3 x y 1 0)].
Proof. intros Lx Ly. destruct x as [|a [|b [|c [|]]]]; try discriminate. destruct y as [|d [|e [|f [|]]]]; try discriminate. reflexivity. Qed.
Lemma product3_comm x y i j : product3 x y i j = product3 y x j i.
Proof. apply SFmul_comm. Qed.
Lemma double_mul x y : double x -> double y -> double (SFmul 53 1024 x y).
Proof. intros Dx Dy. destruct (lift x Dx) as [a <-]. destruct (lift y Dy) as [b <-]. rewrite mul_equiv. apply double_bin. Qed.
Lemma double_nth x i : Forall double x -> double (nth i x S754_nan).
Proof. intros H. destruct (nth_in_or_default i x S754_nan) as [I|E]; [rewrite Forall_forall in H; auto|rewrite E; reflexivity]. Qed.
Lemma double_product3 x y i j : Forall double x -> Forall double y -> double (product3 x y i j).
Proof. intros. apply double_mul; apply double_nth; auto. Qed.
Lemma cross_self x : length x = 3 -> Forall double x -> finite (product3 x x 0 1) -> finite (product3 x x 1 2) -> finite (product3 x x 2 0) ->
  cross double_ops x x = Ok [S754_zero false; S754_zero false; S754_zero false].
Proof.
  intros L D F1 F2 F3. rewrite cross_same by auto. rewrite (product3_comm x x 2 1), (product3_comm x x 0 2), (product3_comm x x 1 0).
  rewrite !(fun x D => proj1 (dsub_self x D)); auto; apply double_product3; auto.
Qed.
(** *** Equality *)
Lemma SFeqb_self x : SFeqb x x = true <-> x <> S754_nan.
Proof.
  destruct x as [s|s| |s m e]; unfold SFeqb; cbn; split; try congruence; try (intros; destruct s; reflexivity).
  intros _. rewrite Z.compare_refl, Pos.compare_cont_refl. destruct s; reflexivity.
Qed.
Lemma V_eq_self x : exists b, V_eq double_ops x x = Ok b /\ (b = true <-> ~ In S754_nan x).
Proof.
  pose proof (seq_same x (length x) eq_refl) as Sx.
  destruct (ret_False _ _ (V_eq_ok double_ops never same (fun a b => SFeqb a b = true) ltac:(intros ? ? a b -> ->; apply ret_ok; reflexivity) x x _ _ _ Sx Sx)) as (b & E & H).
  exists b. split; [exact E|]. rewrite H. split.
  - intros G I. apply (In_nth _ _ S754_nan) in I as (i & Hi & Ei). specialize (G i Hi). rewrite Ei in G. discriminate.
  - intros G i Hi. apply SFeqb_self. intros C. apply G. rewrite <- C. apply nth_In, Hi.
Qed.
Lemma M_eq_self x r c : filled x r c -> exists b, M_eq double_ops x x = Ok b /\ (b = true <-> ~ In (Some S754_nan) (data x)).
Proof.
  intros [g Hx].
  destruct (ret_False _ _ (M_eq_ok double_ops never same (fun a b => SFeqb a b = true) x x r c g g ltac:(intros ? ? a b -> ->; apply ret_ok; reflexivity) Hx Hx)) as (b & E & H).
  exists b. split; [exact E|]. rewrite H. destruct Hx as (_ & _ & L & Hx). split.
  - intros G I. apply In_nth_error in I as (k & Ek). assert (Hk : k < r * c) by (rewrite <- L; apply nth_error_Some; congruence). destruct (Nat.eq_dec c 0) as [->|Nc]; [lia|].
    assert (Hi : k / c < r) by (apply Nat.div_lt_upper_bound; [exact Nc|]; rewrite Nat.mul_comm; exact Hk). assert (Hj : k mod c < c) by (apply Nat.mod_upper_bound, Nc).
    destruct (Hx _ _ Hi Hj) as (a & Ea & Ga). rewrite (Nat.mul_comm (k / c)), <- Nat.div_mod in Ea by exact Nc. specialize (G _ _ Hi Hj). rewrite <- Ga in G.
    assert (N : a = S754_nan) by congruence. rewrite N in G. discriminate.
  - intros G i j Hi Hj. apply SFeqb_self. intros C. apply G. destruct (Hx i j Hi Hj) as (a & Ea & Ga). rewrite <- C, <- Ga. apply (nth_error_In _ _ Ea).
Qed.
(** *** Differences *)
Lemma M_sub_swap x y r c g h : mat_of R_double x r c g -> mat_of R_double y r c h -> exists d e f, M_sub double_ops x y = Ok d /\ M_sub double_ops y x = Ok e /\
  M_neg double_ops e = Ok f /\ M_eq double_ops d f = Ok true.
Proof.
  intros Hx Hy. assert (Fill : forall z g, mat_of R_double z r c g -> exists k, mat_of same z r c k /\ forall i j, i < r -> j < c -> double (k i j) /\ finite (k i j)).
  { intros z g0 (R1 & C1 & L1 & H). exists (fun i j => match nth_error (data z) (i * c + j) with Some (Some d) => d | _ => S754_nan end). split.
    - split; [exact R1|]. split; [exact C1|]. split; [exact L1|]. intros i j Hi Hj. destruct (H i j Hi Hj) as (d & Ed & _). exists d. rewrite Ed. split; reflexivity.
    - intros i j Hi Hj. destruct (H i j Hi Hj) as (d & Ed & D & F & _). rewrite Ed. auto. }
  destruct (Fill x g Hx) as (v & Sx & Dx). destruct (Fill y h Hy) as (w & Sy & Dy).
  destruct (ret_False _ _ (mat_binary_ok double_ops never same _ _ x y r c v w sub_same Sx Sy)) as (d & E1 & H1).
  destruct (ret_False _ _ (mat_binary_ok double_ops never same _ _ y x r c w v sub_same Sy Sx)) as (e & E2 & H2).
  destruct (ret_False _ _ (M_neg_ok double_ops never same SFopp e r c _ ltac:(intros ? a ->; apply ret_ok; reflexivity) H2)) as (f & E3 & H3).
  exists d, e, f. splits; auto.
  destruct (ret_False _ _ (M_eq_ok double_ops never same (fun a b => SFeqb a b = true) d f r c _ _ ltac:(intros ? ? a b -> ->; apply ret_ok; reflexivity) H1 H3)) as (b & E & H).
  rewrite E. f_equal. apply H. intros i j Hi Hj. destruct (Dx i j Hi Hj), (Dy i j Hi Hj). apply dsub_swap; auto.
Qed.
