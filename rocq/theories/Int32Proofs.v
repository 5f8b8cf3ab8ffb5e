(** Vec<int> and Mat<int>: exact unless undefined, and when it is undefined. *)
From Coq Require Import Factorial.
From Verif Require Import Base IntModel IntBasics ElemModel ElemSpec ElemProofs ElemInst VecModel VecProofs MatModel MatSpec MatProofs Int32Spec.
Local Open Scope Z_scope.

Lemma in_int32_fits z : in_int32 z = true <-> fits z.
Proof. unfold in_int32, fits. rewrite andb_true_iff, !Z.leb_le. reflexivity. Qed.
Lemma i32_fits z : fits z -> i32 z = Ok z.
Proof. intros H. unfold i32. apply in_int32_fits in H. rewrite H. reflexivity. Qed.
Lemma i32_over z : ~ fits z -> i32 z = UB.
Proof. intros H. unfold i32. destruct (in_int32 z) eqn:E; auto. apply in_int32_fits in E. contradiction. Qed.
Lemma fits_dec z : fits z \/ ~ fits z.
Proof. rewrite <- in_int32_fits. destruct (in_int32 z); auto. Qed.

(** undefined, and F is false *)
Definition overflow (F : Prop) (h : halt) : Prop := h = HUB /\ ~ F.
Lemma exact_if_ret {A} F (m : res A) (P Q : A -> Prop) : ret (overflow F) m P -> (forall a, P a -> F /\ Q a) -> exact_if F m Q.
Proof.
  intros [(a & -> & H)|(h & [-> N] & ->)] HP.
  - destruct (HP a H) as [HF HQ]. split; [eauto|intros N; contradiction].
  - split; [contradiction|reflexivity].
Qed.
Lemma leaves_if_sret {S} F (p : outcome S) (P Q : S -> Prop) : sret (overflow F) p P -> (forall s, P s -> F /\ Q s) -> leaves_if F p Q.
Proof.
  destruct p as [s r]. intros [(E & H)|(h & [-> N] & E)] HP; cbn in *; subst.
  - destruct (HP s H) as [HF HQ]. split; [eauto|intros N; contradiction].
  - split; [contradiction|reflexivity].
Qed.
Lemma i32_pt (F : Prop) z : (F -> fits z) -> ret (overflow F) (i32 z) (fun r => R32 r z).
Proof.
  intros H. destruct (fits_dec z) as [Hz|Hz]; [rewrite i32_fits by auto; left; exists z; split; auto; split; auto|].
  rewrite i32_over by auto. right. exists HUB. split; [split; [reflexivity|tauto]|reflexivity].
Qed.
Lemma div_pt (F : Prop) a b : (F -> b <> 0 /\ fits (Z.quot a b)) -> ret (overflow F) (int32_div a b) (fun r => b <> 0 /\ R32 r (Z.quot a b)).
Proof.
  intros H. unfold int32_div. destruct (Z.eqb_spec b 0) as [->|N].
  - right. exists HUB. split; [split; [reflexivity|intros G; apply H in G; tauto]|reflexivity].
  - eapply ret_mono; [apply i32_pt; intros G; apply H, G|]. auto.
Qed.

(** *** Vec<int> *)
Section V.
Variables (f : Z -> Z -> Z) (op : Z -> option Z -> res Z).
Hypothesis Hop : forall a b, op a (Some b) = i32 (f a b).
Lemma seq_fits r n v : seq_of R32 r n v -> forall i, (i < n)%nat -> fits (v i).
Proof. intros [_ H] i Hi. destruct (H i Hi) as (e & _ & _ & F). exact F. Qed.
Lemma vec_binary_32 x y n v w : seq_of R32 x n v -> seq_of R32 y n w ->
  exact_if (forall i, (i < n)%nat -> fits (f (v i) (w i))) (vec_binary op x y) (fun r => seq_of R32 r n (fun i => f (v i) (w i))).
Proof.
  intros Hx Hy. eapply exact_if_ret.
  - apply (vec_binary_pt (overflow _) R32 R32 op f x y n v w); auto. intros i e d Hi [-> _] [-> _]. rewrite Hop. apply i32_pt. auto.
  - intros r Hr. split; [|exact Hr]. exact (seq_fits _ _ _ Hr).
Qed.
Lemma vec_assign_32 x y n v w : seq_of R32 x n v ->
  match y with None => forall i, (i < n)%nat -> w i = v i | Some y => seq_of R32 y n w end ->
  leaves_if (forall i, (i < n)%nat -> fits (f (v i) (w i))) (vec_assign op x y) (fun r => seq_of R32 r n (fun i => f (v i) (w i))).
Proof.
  intros Hx Hy. eapply leaves_if_sret.
  - apply (vec_assign_pt (overflow _) R32 R32 op f x y n v w); auto. intros i e d Hi [-> _] [-> _]. rewrite Hop. apply i32_pt. auto.
  - intros r Hr. split; [|exact Hr]. exact (seq_fits _ _ _ Hr).
Qed.
Lemma scale_32 x a n v : seq_of R32 x n v ->
  leaves_if (forall i, (i < n)%nat -> fits (f (v i) a)) (scale_assign op x (Val a)) (fun r => seq_of R32 r n (fun i => f (v i) a)).
Proof.
  intros Hx. eapply leaves_if_sret.
  - apply (scale_val_pt (overflow _) R32 R32 op f x a n v a); auto. intros i e Hi [-> _]. rewrite Hop. apply i32_pt. auto.
  - intros r Hr. split; [|exact Hr]. exact (seq_fits _ _ _ Hr).
Qed.
End V.
Lemma divide_32 x a n v : seq_of R32 x n v ->
  leaves_if (forall i, (i < n)%nat -> a <> 0 /\ fits (Z.quot (v i) a)) (V_div_assign int32_ops x (Val a)) (fun r => seq_of R32 r n (fun i => Z.quot (v i) a)).
Proof.
  intros Hx. eapply leaves_if_sret.
  - apply (scale_val_pt (overflow _) R32 (fun x b => a <> 0 /\ R32 x b) (divA int32_ops) Z.quot x a n v a); auto.
    intros i e Hi [-> _]. cbn [divA int32_ops rd]. apply div_pt. auto.
  - intros r [L H]. split.
    + intros i Hi. destruct (H i Hi) as (e & _ & N & _ & F). auto.
    + split; auto. intros i Hi. destruct (H i Hi) as (e & E & N & R). eauto.
Qed.
Lemma final_leaves {S} F (p : outcome S) Q : leaves_if F p Q -> exact_if F (final p) Q.
Proof.
  destruct p as [s r]. unfold final. cbn [fst snd]. intros [H1 H2]. split; intros G.
  - destruct (H1 G) as (t & E & HQ). injection E as -> ->. exists t. auto.
  - rewrite (H2 G : r = UB). reflexivity.
Qed.

Lemma dot_32 x y n v w : seq_of R32 x n v -> seq_of R32 y n w ->
  exact_if ((forall i, (i < n)%nat -> fits (v i * w i)) /\ sums_fit n (fun i => v i * w i)) (dot int32_ops x y)
    (fun r => R32 r (total n (fun i => v i * w i))).
Proof.
  intros Hx Hy. set (p := fun i => v i * w i). set (F := _ /\ _).
  apply (exact_if_ret F _ (fun r => R32 r (total n p) /\ forall k, (k < n)%nat -> fits (p k) /\ fits (total (S k) p))).
  - unfold dot. replace (length x) with n by (symmetry; apply Hx). replace (length y) with n by (symmetry; apply Hy).
    rewrite Nat.eqb_refl. cbn [negb]. apply ret_final.
    apply (sret_for _ (fun i r => R32 r (total i p) /\ forall k, (k < i)%nat -> fits (p k) /\ fits (total (S k) p)) n 0).
    + split; [split; [reflexivity|]|intros k Hk; lia]. change (total 0 p) with 0. unfold fits, INT32_MIN, INT32_MAX. lia.
    + intros i r Hi [[-> F0] Hk]. eapply sret_eval; [|intros a Ha; apply sret_done; exact Ha].
      eapply ret_bind; [apply (seqP_get _ x n _ i Hx); lia|]. intros a [-> _].
      eapply ret_bind; [apply (seqP_get _ y n _ i Hy); lia|]. intros b [-> _]. cbn [mul int32_ops addA rd].
      eapply ret_bind; [apply i32_pt; intros [H _]; apply H; lia|]. intros q [-> Fq].
      eapply ret_mono; [apply (i32_pt F (total i p + p i)); intros [_ H]; apply (H i); lia|]. intros s [-> Fs].
      change (total i p + p i) with (total (S i) p) in *. split; [split; auto|]. intros k Hk'. destruct (Nat.eq_dec k i) as [->|N]; [auto|]. apply Hk. lia.
  - intros r [H1 H2]. split; auto. split; [intros i Hi|intros i Hi]; apply H2, Hi.
Qed.

(** *** Mat<int> *)
Lemma mat_fits r c m g : mat_of R32 m r c g -> forall i j, (i < r)%nat -> (j < c)%nat -> fits (g i j).
Proof. intros (_ & _ & _ & H) i j Hi Hj. destruct (H i j Hi Hj) as (e & _ & _ & F). exact F. Qed.
Lemma fill_32 r c (f : nat -> nat -> res Z) v :
  (forall (F : Prop) i j, (i < r)%nat -> (j < c)%nat -> (F -> fits (v i j)) -> ret (overflow F) (f i j) (fun x => R32 x (v i j))) ->
  exact_if (forall i j, (i < r)%nat -> (j < c)%nat -> fits (v i j)) (final (fill r c f (Mat_new int32_ops r c))) (fun d => mat_of R32 d r c v).
Proof.
  intros Hf. eapply exact_if_ret.
  - apply (fill_new (overflow (forall i j, (i < r)%nat -> (j < c)%nat -> fits (v i j))) int32_ops R32 f r c v). intros i j Hi Hj. apply Hf; auto.
  - intros d Hd. split; auto. exact (mat_fits _ _ _ _ Hd).
Qed.
Lemma mat_binary_32 (f : Z -> Z -> Z) (op : Z -> Z -> res Z) x y r c g h : (forall a b, op a b = i32 (f a b)) ->
  mat_of R32 x r c g -> mat_of R32 y r c h ->
  exact_if (forall i j, (i < r)%nat -> (j < c)%nat -> fits (f (g i j) (h i j))) (mat_binary int32_ops op x y)
    (fun d => mat_of R32 d r c (fun i j => f (g i j) (h i j))).
Proof.
  intros Hop Hx Hy. unfold mat_binary. pose proof (mat_of_dims _ _ _ _ _ Hx) as Dx. pose proof (mat_of_dims _ _ _ _ _ Hy) as Dy.
  rewrite (same_dims_yes x y r c Dx Dy). cbn [negb]. destruct Dx as (-> & -> & _).
  apply fill_32. intros F i j Hi Hj HF.
  eapply ret_bind; [apply (entry_of _ R32 x r c g i j); auto|]. intros a [-> _].
  eapply ret_bind; [apply (entry_of _ R32 y r c h i j); auto|]. intros b [-> _]. rewrite Hop. apply i32_pt, HF.
Qed.
Lemma mat_assign_32 (f : Z -> Z -> Z) (op : Z -> option Z -> res Z) x y r c g h : (forall a b, op a (Some b) = i32 (f a b)) ->
  mat_of R32 x r c g -> match y with None => forall i j, (i < r)%nat -> (j < c)%nat -> h i j = g i j | Some y => mat_of R32 y r c h end ->
  leaves_if (forall i j, (i < r)%nat -> (j < c)%nat -> fits (f (g i j) (h i j))) (mat_assign op x y)
    (fun d => mat_of R32 d r c (fun i j => f (g i j) (h i j))).
Proof.
  intros Hop Hx Hy. eapply leaves_if_sret.
  - apply (mat_assign_pt (overflow _) R32 R32 op f x y r c g h); auto. intros i j a b Hi Hj [-> _] [-> _]. rewrite Hop. apply i32_pt. auto.
  - intros d Hd. split; auto. exact (mat_fits _ _ _ _ Hd).
Qed.
Lemma M_neg_32 x r c g : mat_of R32 x r c g ->
  exact_if (forall i j, (i < r)%nat -> (j < c)%nat -> fits (- g i j)) (M_neg int32_ops x) (fun d => mat_of R32 d r c (fun i j => - g i j)).
Proof.
  intros Hx. unfold M_neg. destruct (mat_of_dims _ _ _ _ _ Hx) as (-> & -> & _). apply fill_32. intros F i j Hi Hj HF.
  eapply ret_bind; [apply (entry_of _ R32 x r c g i j); auto|]. intros a [-> _]. apply i32_pt, HF.
Qed.
Lemma M_scale_32 s x r c g : mat_of R32 x r c g ->
  exact_if (forall i j, (i < r)%nat -> (j < c)%nat -> fits (s * g i j)) (M_scale int32_ops s x) (fun d => mat_of R32 d r c (fun i j => s * g i j)).
Proof.
  intros Hx. unfold M_scale. destruct (mat_of_dims _ _ _ _ _ Hx) as (-> & -> & _). apply fill_32. intros F i j Hi Hj HF.
  eapply ret_bind; [apply (entry_of _ R32 x r c g i j); auto|]. intros a [-> _]. apply i32_pt, HF.
Qed.
Lemma M_div_32 s x r c g : mat_of R32 x r c g ->
  exact_if (forall i j, (i < r)%nat -> (j < c)%nat -> s <> 0 /\ fits (Z.quot (g i j) s)) (M_div int32_ops x s)
    (fun d => mat_of R32 d r c (fun i j => Z.quot (g i j) s)).
Proof.
  intros Hx. unfold M_div. destruct (mat_of_dims _ _ _ _ _ Hx) as (-> & -> & _).
  set (F := forall i j, (i < r)%nat -> (j < c)%nat -> _).
  eapply (exact_if_ret F _ (fun d => mat_of (fun x b => s <> 0 /\ R32 x b) d r c (fun i j => Z.quot (g i j) s))).
  - apply fill_new. intros i j Hi Hj. eapply ret_bind; [apply (entry_of _ R32 x r c g i j); auto|]. intros a [-> _].
    apply div_pt. intros H. apply H; auto.
  - intros d Hd. split; [|eapply mat_of_mono; [|exact Hd]; cbn; tauto].
    destruct Hd as (_ & _ & _ & H). intros i j Hi Hj. destruct (H i j Hi Hj) as (e & _ & N & _ & Fe). auto.
Qed.
Lemma mat_scale_32 (f : Z -> Z -> Z) (op : Z -> option Z -> res Z) x s r c g : (forall a b, op a (Some b) = i32 (f a b)) ->
  mat_of R32 x r c g ->
  leaves_if (forall i j, (i < r)%nat -> (j < c)%nat -> fits (f (g i j) s)) (mat_scale_assign op x (MVal s))
    (fun d => mat_of R32 d r c (fun i j => f (g i j) s)).
Proof.
  intros Hop Hx. eapply leaves_if_sret.
  - apply (mat_scale_val_pt (overflow _) R32 R32 op f x s r c g s); auto. intros i j a Hi Hj [-> _]. rewrite Hop. apply i32_pt. auto.
  - intros d Hd. split; auto. exact (mat_fits _ _ _ _ Hd).
Qed.
Lemma mat_div_32 x s r c g : mat_of R32 x r c g ->
  leaves_if (forall i j, (i < r)%nat -> (j < c)%nat -> s <> 0 /\ fits (Z.quot (g i j) s)) (M_div_assign int32_ops x (MVal s))
    (fun d => mat_of R32 d r c (fun i j => Z.quot (g i j) s)).
Proof.
  intros Hx. eapply leaves_if_sret.
  - apply (mat_scale_val_pt (overflow _) R32 (fun x b => s <> 0 /\ R32 x b) (divA int32_ops) Z.quot x s r c g s); auto.
    intros i j e Hi Hj [-> _]. cbn [divA int32_ops rd]. apply div_pt. auto.
  - intros d Hd. split; [|eapply mat_of_mono; [|exact Hd]; cbn; tauto].
    destruct Hd as (_ & _ & _ & H). intros i j Hi Hj. destruct (H i j Hi Hj) as (e & _ & N & _ & Fe). auto.
Qed.
Lemma M_product_32 x y n m p g h : mat_of R32 x n m g -> mat_of R32 y m p h ->
  exact_if (forall i j, (i < n)%nat -> (j < p)%nat -> (forall k, (k < m)%nat -> fits (g i k * h k j)) /\ sums_fit m (fun k => g i k * h k j))
    (M_product int32_ops x y) (fun d => mat_of R32 d n p (fun i j => total m (fun k => g i k * h k j))).
Proof.
  intros Hx Hy. set (F := forall i j, (i < n)%nat -> (j < p)%nat -> _). set (q := fun i j k => g i k * h k j).
  eapply exact_if_ret.
  - apply (M_product_pt int32_ops (overflow F) R32 (fun k i j r => R32 r (total k (q i j)) /\ forall l, (l < k)%nat -> fits (q i j l) /\ fits (total (S l) (q i j)))
      (fun i k j r => R32 r (q i j k)) x y n m p g h); auto.
    + intros i j Hi Hj. split; [split; [reflexivity|]|intros l Hl; lia]. change (total 0 (q i j)) with 0. unfold fits, INT32_MIN, INT32_MAX. lia.
    + intros i k j a b Hi Hk Hj [-> _] [-> _]. apply (i32_pt F (q i j k)). intros H. apply (H i j Hi Hj). exact Hk.
    + intros i k j a e Hi Hk Hj [-> Fq] [[-> Ft] Hl]. cbn [addA int32_ops rd].
      eapply ret_mono; [apply (i32_pt F (total k (q i j) + q i j k)); intros H; apply (H i j Hi Hj); exact Hk|]. intros s [-> Fs].
      change (total k (q i j) + q i j k) with (total (S k) (q i j)) in *. split; [split; auto|]. intros l Hl'.
      destruct (Nat.eq_dec l k) as [->|N]; [auto|]. apply Hl. lia.
  - intros d Hd. split.
    + intros i j Hi Hj. destruct Hd as [_ Hd]. destruct (Hd i j Hi Hj) as (o & _ & e & _ & _ & Hl). split; [intros k Hk|intros k Hk]; apply Hl, Hk.
    + apply mat_of_P. eapply matP_mono; [exact Hd|]. intros i j o _ _ (e & -> & H & _). exists e. auto.
Qed.
Lemma trace_32 x n g : mat_of R32 x n n g ->
  exact_if (sums_fit n (fun i => g i i)) (trace int32_ops x) (fun r => R32 r (total n (fun i => g i i))).
Proof.
  intros Hx. set (p := fun i => g i i). set (F := sums_fit n p).
  apply (exact_if_ret F _ (fun r => R32 r (total n p) /\ forall k, (k < n)%nat -> fits (total (S k) p))).
  - unfold trace. destruct (mat_of_dims _ _ _ _ _ Hx) as (-> & -> & _). rewrite Nat.eqb_refl. cbn [negb]. apply ret_final.
    apply (sret_for _ (fun i r => R32 r (total i p) /\ forall k, (k < i)%nat -> fits (total (S k) p)) n 0).
    + split; [split; [reflexivity|]|intros k Hk; lia]. change (total 0 p) with 0. unfold fits, INT32_MIN, INT32_MAX. lia.
    + intros i r Hi [[-> F0] Hk]. eapply sret_eval; [|intros a Ha; apply sret_done; exact Ha].
      eapply ret_bind; [apply (entry_of _ R32 x n n g i i); auto; lia|]. intros a [-> _]. cbn [int32_ops addA rd].
      eapply ret_mono; [apply (i32_pt F (total i p + p i)); intros H; apply (H i); lia|]. intros s [-> Fs].
      change (total i p + p i) with (total (S i) p) in *. split; [split; auto|]. intros k Hk'. destruct (Nat.eq_dec k i) as [->|N]; [auto|]. apply Hk. lia.
  - intros r [H1 H2]. split; auto.
Qed.

(** *** Small entries never overflow *)
Lemma total_bound n p (b : nat -> Z) : (forall k, (k < n)%nat -> Z.abs (p k) <= b k) -> Z.abs (total n p) <= total n b.
Proof.
  induction n as [|n IH]; intros H; [cbn; lia|]. unfold total in *. cbn [sum_to].
  specialize (IH ltac:(intros; apply H; lia)). specialize (H n ltac:(lia)). lia.
Qed.
Lemma total_const n b : total n (fun _ => b) = Z.of_nat n * b.
Proof. unfold total. induction n as [|n IH]; cbn [sum_to]; [reflexivity|]. rewrite IH. lia. Qed.
Lemma total_mono n m p : (forall k, 0 <= p k) -> (n <= m)%nat -> total n p <= total m p.
Proof. intros H L. induction L as [|m L IH]; [lia|]. unfold total in *. cbn [sum_to]. specialize (H m). lia. Qed.
Lemma abs_fits z b : Z.abs z <= b -> b <= INT32_MAX -> fits z.
Proof. unfold fits, INT32_MIN, INT32_MAX. lia. Qed.
Lemma bounded_fit n p : total n (fun k => Z.abs (p k)) <= INT32_MAX -> (forall k, (k < n)%nat -> fits (p k)) /\ sums_fit n p.
Proof.
  intros H. assert (G : forall m, (m <= n)%nat -> total m (fun k => Z.abs (p k)) <= INT32_MAX).
  { intros m Hm. pose proof (total_mono m n (fun k => Z.abs (p k)) ltac:(intros; lia) Hm). lia. }
  split; intros k Hk.
  - apply (abs_fits _ (total (S k) (fun k => Z.abs (p k)))); [|apply G; lia]. unfold total. cbn [sum_to].
    pose proof (total_mono 0 k (fun k => Z.abs (p k)) ltac:(intros; lia) ltac:(lia)) as P. unfold total in P. cbn [sum_to] in P. lia.
  - apply (abs_fits _ (total (S k) (fun k => Z.abs (p k)))); [|apply G; lia]. apply total_bound. intros; lia.
Qed.

(** *** cross *)
Lemma minor_32 (F : Prop) x y n v w i j : seq_of R32 x n v -> seq_of R32 y n w -> (i < n)%nat -> (j < n)%nat ->
  (F -> fits (v i * w j) /\ fits (v j * w i) /\ fits (v i * w j - v j * w i)) ->
  ret (overflow F) (minor int32_ops x y i j)
    (fun r => R32 r (v i * w j - v j * w i) /\ fits (v i * w j) /\ fits (v j * w i)).
Proof.
  intros Hx Hy Hi Hj HF. unfold minor.
  eapply ret_bind; [apply (seqP_get _ x n _ i Hx Hi)|]. intros a [-> _].
  eapply ret_bind; [apply (seqP_get _ y n _ j Hy Hj)|]. intros b [-> _].
  eapply ret_bind; [apply (i32_pt F (v i * w j)); tauto|]. intros p [-> Fp].
  eapply ret_bind; [apply (seqP_get _ x n _ j Hx Hj)|]. intros c [-> _].
  eapply ret_bind; [apply (seqP_get _ y n _ i Hy Hi)|]. intros d [-> _].
  eapply ret_bind; [apply (i32_pt F (v j * w i)); tauto|]. intros q [-> Fq].
  eapply ret_mono; [apply (i32_pt F (v i * w j - v j * w i)); tauto|]. auto.
Qed.
Lemma cross_32 x y v w : seq_of R32 x 3 v -> seq_of R32 y 3 w ->
  exact_if (cross_fits v w) (cross int32_ops x y) (fun r => seq_of R32 r 3 (cross_at Z.sub Z.mul v w)).
Proof.
  intros Hx Hy. eapply (exact_if_ret _ _ (fun r => cross_fits v w /\ seq_of R32 r 3 (cross_at Z.sub Z.mul v w))); [|auto].
  unfold cross. assert (Lx : length x = 3%nat) by apply Hx. assert (Ly : length y = 3%nat) by apply Hy.
  rewrite Lx, Ly. cbn [Nat.eqb andb negb].
  eapply ret_bind; [apply (minor_32 _ x y 3 v w 1 2 Hx Hy); [lia|lia|intros H; apply H; cbn; auto]|]. intros a (Ha & Fa & Fa').
  eapply ret_bind; [apply (minor_32 _ x y 3 v w 2 0 Hx Hy); [lia|lia|intros H; apply H; cbn; auto]|]. intros b (Hb & Fb & Fb').
  eapply ret_bind; [apply (minor_32 _ x y 3 v w 0 1 Hx Hy); [lia|lia|intros H; apply H; cbn; auto]|]. intros c (Hc & Fc & Fc').
  cbn. apply ret_ok. split.
  - intros i j [[= <- <-]|[[= <- <-]|[[= <- <-]|[]]]]; (split; [|split]); auto; [apply Ha|apply Hb|apply Hc].
  - split; auto. intros i Hi. destruct i as [|[|[|i]]]; [| | |lia]; cbn; eauto.
Qed.

(** *** Cofactor expansion with small entries *)
Lemma det_bound_0 n b : 0 <= b -> 0 <= det_bound n b.
Proof. intros H. unfold det_bound. apply Z.mul_nonneg_nonneg; [lia|]. apply Z.pow_nonneg, H. Qed.
Lemma det_bound_S n b : det_bound (S n) b = Z.of_nat (S n) * (b * det_bound n b).
Proof. unfold det_bound. change (fact (S n)) with (S n * fact n)%nat. rewrite Nat2Z.inj_mul, (Nat2Z.inj_succ n), Z.pow_succ_r by lia. ring. Qed.
Lemma det_bound_le n b : 0 <= b -> (0 < n)%nat -> det_bound n b <= det_bound (S n) b.
Proof.
  intros Hb Hn. rewrite det_bound_S. pose proof (det_bound_0 n b Hb).
  destruct (Z.eq_dec b 0) as [->|N]; [|nia]. unfold det_bound. rewrite Z.pow_0_l by lia. lia.
Qed.
(** any element type that represents the integers up to a bound M and computes
    exactly while its results stay below it *)
Section Small.
Context {T : Type} (E : ops T) (R : T -> Z -> Prop) (M : Z).
Hypothesis M1 : 1 <= M.
Hypothesis R0 : R (of_int E 0) 0.
Hypothesis Rmul : forall x y a b, R x a -> R y b -> Z.abs (a * b) <= M -> exists r, mul E x y = Ok r /\ R r (a * b).
Hypothesis Rsub : forall x y a b, R x a -> R y b -> Z.abs (a - b) <= M -> exists r, sub E x y = Ok r /\ R r (a - b).
Hypothesis RsubA : forall x y a b, R x a -> R y b -> Z.abs (a - b) <= M -> exists r, subA E x (Some y) = Ok r /\ R r (a - b).
Hypothesis RaddA : forall x y a b, R x a -> R y b -> Z.abs (a + b) <= M -> exists r, addA E x (Some y) = Ok r /\ R r (a + b).
Hypothesis Reqb : forall x y a b, R x a -> R y b -> exists e, eqb E x y = Ok e.
Definition upto (b : Z) (x : T) (a : Z) : Prop := R x a /\ Z.abs a <= b.
Definition within (b : Z) (x : T) : Prop := exists a, upto b x a.
Lemma read_upto b m r c g k i j : mat_of (upto b) m r c g -> (i < r)%nat -> (j < c)%nat -> k = (i * c + j)%nat ->
  exists x a, read (data m) k = Ok x /\ R x a /\ Z.abs a <= b.
Proof.
  intros (_ & _ & _ & H) Hi Hj ->. destruct (H i j Hi Hj) as (x & Ex & [Hx Hb]). exists x, (g i j). unfold read. rewrite Ex. auto.
Qed.
Lemma mul_upto a b p q : Z.abs a <= p -> Z.abs b <= q -> Z.abs (a * b) <= p * q.
Proof. intros H1 H2. rewrite Z.abs_mul. apply Z.mul_le_mono_nonneg; lia. Qed.
Lemma expansion_small b rec m n k ent mnr g : 0 <= b -> det_bound n b <= M -> mat_of (upto b) m n n g -> (k <= n)%nat ->
  (forall l, (l < k)%nat -> exists x, ent l = Ok x /\ within b x) ->
  (forall l, (l < k)%nat -> (2 < n)%nat -> exists s x, mnr l = Ok s /\ rec s = Ok x /\ within (det_bound (n - 1) b) x) ->
  exists d, expansion E rec m k ent mnr = Ok d /\ within (det_bound n b) d.
Proof.
  intros Hb Hn Hm Hk He Hd. unfold expansion. destruct (mat_of_dims _ _ _ _ _ Hm) as (Dr & Dc & _). rewrite Dr, Dc, Nat.eqb_refl. cbn [negb].
  destruct (Nat.eqb_spec n 1) as [->|N1].
  { destruct (read_upto b m 1 1 g 0 0 0 Hm) as (x & a & Ex & Hx & Hb'); try lia. exists x. split; auto. exists a. split; auto. unfold det_bound.
    change (Z.of_nat (fact 1) * b ^ Z.of_nat 1) with (1 * b ^ 1). rewrite Z.pow_1_r. lia. }
  destruct (Nat.eqb_spec n 2) as [->|N2].
  { assert (B2 : det_bound 2 b = 2 * (b * b)).
    { unfold det_bound. change (Z.of_nat (fact 2) * b ^ Z.of_nat 2) with (2 * b ^ 2). rewrite Z.pow_2_r. ring. }
    rewrite B2 in *. unfold det2.
    destruct (read_upto b m 2 2 g 0 0 0 Hm) as (x & xa & -> & Hx & Bx); try lia. destruct (read_upto b m 2 2 g 3 1 1 Hm) as (w & wa & -> & Hw & Bw); try lia.
    destruct (read_upto b m 2 2 g 1 0 1 Hm) as (y & ya & -> & Hy & By); try lia. destruct (read_upto b m 2 2 g 2 1 0 Hm) as (z & za & -> & Hz & Bz); try lia.
    cbn [bind]. pose proof (mul_upto xa wa b b Bx Bw) as P1. pose proof (mul_upto ya za b b By Bz) as P2.
    destruct (Rmul x w xa wa Hx Hw) as (p & -> & Hp); [lia|]. cbn [bind]. destruct (Rmul y z ya za Hy Hz) as (q & -> & Hq); [lia|]. cbn [bind].
    destruct (Rsub p q _ _ Hp Hq) as (r & -> & Hr); [lia|]. exists r. split; auto. eexists. split; [exact Hr|]. lia. }
  assert (H : sret never (for_ k 0 (fun k result =>
    eval result (ent k) (fun x => eval result (eqb E x (of_int E 0)) (fun z : bool =>
      if z then done result
      else eval result (s <- mnr k ;; d <- rec s ;; p <- mul E x d ;;
                        if (k mod 2 =? 1)%nat then subA E result (Some p) else addA E result (Some p)) done))) (of_int E 0))
    (within (Z.of_nat k * (b * det_bound (n - 1) b)))).
  { assert (B : 0 <= det_bound (n - 1) b) by (apply det_bound_0, Hb).
    assert (Bn : Z.of_nat n * (b * det_bound (n - 1) b) <= M).
    { destruct n as [|n']; [lia|]. rewrite det_bound_S in Hn. replace (S n' - 1)%nat with n' by lia. exact Hn. }
    apply (sret_for never (fun l => within (Z.of_nat l * (b * det_bound (n - 1) b))) k 0); [exists 0; split; [exact R0|cbn; lia]|].
    intros l t Hl (ta & Ht & Bt). assert (Hl' : (l < k)%nat) by lia. destruct (He l Hl') as (x & -> & xa & Hx & Bx). cbn [eval].
    destruct (Reqb x _ _ _ Hx R0) as (e & ->). cbn [eval].
    assert (P : b * det_bound (n - 1) b <= Z.of_nat n * (b * det_bound (n - 1) b)) by nia.
    assert (Q : Z.of_nat (S l) * (b * det_bound (n - 1) b) <= Z.of_nat n * (b * det_bound (n - 1) b)).
    { apply Z.mul_le_mono_nonneg_r; [nia|lia]. }
    destruct e.
    - apply sret_done. exists ta. split; auto. nia.
    - destruct (Hd l Hl') as (s & y & -> & Ey & ya & Hy & By); [lia|]. cbn [bind]. rewrite Ey. cbn [bind].
      pose proof (mul_upto xa ya _ _ Bx By) as P1. destruct (Rmul x y xa ya Hx Hy) as (p & -> & Hp); [lia|]. cbn [bind].
      destruct (_ =? _)%nat.
      + destruct (RsubA t p _ _ Ht Hp) as (r & -> & Hr); [lia|]. apply sret_done. eexists. split; [exact Hr|]. lia.
      + destruct (RaddA t p _ _ Ht Hp) as (r & -> & Hr); [lia|]. apply sret_done. eexists. split; [exact Hr|]. lia. }
  apply ret_final, ret_False in H as (t & -> & ta & Ht & Bt). exists t. split; auto. exists ta. split; auto.
  destruct n as [|n]; [replace k with 0%nat in Bt by lia; rewrite Z.mul_0_l in Bt; change (det_bound 0 b) with 1; lia|]. rewrite det_bound_S. replace (S n - 1)%nat with n in Bt by lia.
  pose proof (det_bound_0 n b Hb). assert (Z.of_nat k * (b * det_bound n b) <= Z.of_nat (S n) * (b * det_bound n b)); [|lia].
  apply Z.mul_le_mono_nonneg_r; [nia|lia].
Qed.
Lemma row_expansion_small b fuel : 0 <= b -> forall n m g, mat_of (upto b) m n n g -> (n < fuel)%nat -> det_bound n b <= M ->
  exists d, row_expansion E fuel m = Ok d /\ within (det_bound n b) d.
Proof.
  intros Hb. induction fuel as [|fuel IH]; intros n m g Hm Hf Hn; [lia|]. cbn [row_expansion].
  destruct (mat_of_dims _ _ _ _ _ Hm) as (_ & -> & _). eapply expansion_small; eauto.
  - intros l Hl. destruct (ret_False _ _ (entry_of never _ m n n g 0 l Hm ltac:(lia) Hl)) as (x & Ex & Hx). exists x. split; auto. exists (g 0%nat l). exact Hx.
  - intros l Hl N. destruct (ret_False _ _ (first_minor_ok E never _ m n n g 0 l Hm ltac:(lia) ltac:(lia))) as (s & Es & Hs).
    destruct (IH _ s _ Hs) as (x & E' & Hx); [lia| |exists s, x; auto].
    pose proof (det_bound_le (n - 1) b Hb ltac:(lia)) as L. replace (S (n - 1)) with n in L by lia. lia.
Qed.
Lemma col_expansion_small b fuel : 0 <= b -> forall n m g, mat_of (upto b) m n n g -> (n < fuel)%nat -> det_bound n b <= M ->
  exists d, col_expansion E fuel m = Ok d /\ within (det_bound n b) d.
Proof.
  intros Hb. induction fuel as [|fuel IH]; intros n m g Hm Hf Hn; [lia|]. cbn [col_expansion].
  destruct (mat_of_dims _ _ _ _ _ Hm) as (-> & _ & _). eapply expansion_small; eauto.
  - intros l Hl. destruct (ret_False _ _ (entry_of never _ m n n g l 0 Hm Hl ltac:(lia))) as (x & Ex & Hx). exists x. split; auto. exists (g l 0%nat). exact Hx.
  - intros l Hl N. destruct (ret_False _ _ (first_minor_ok E never _ m n n g l 0 Hm ltac:(lia) ltac:(lia))) as (s & Es & Hs).
    destruct (IH _ s _ Hs) as (x & E' & Hx); [lia| |exists s, x; auto].
    pose proof (det_bound_le (n - 1) b Hb ltac:(lia)) as L. replace (S (n - 1)) with n in L by lia. lia.
Qed.
End Small.
Lemma i32_upto z : Z.abs z <= INT32_MAX -> exists r, i32 z = Ok r /\ r = z.
Proof. intros H. exists z. split; auto. apply i32_fits, (abs_fits z INT32_MAX); auto. lia. Qed.
Lemma row_expansion_32 b fuel : 0 <= b -> forall n m g, mat_of (R32_upto b) m n n g -> (n < fuel)%nat -> det_bound n b <= INT32_MAX ->
  exists d, row_expansion int32_ops fuel m = Ok d.
Proof.
  intros Hb n m g Hm Hf Hn. destruct (row_expansion_small int32_ops eq INT32_MAX) with (b := b) (fuel := fuel) (n := n) (m := m) (g := g) as (d & Ed & _); auto; try discriminate; try (intros x y a c -> ->; apply i32_upto).
  - intros x y a c _ _. eexists. reflexivity.
  - exists d. exact Ed.
Qed.
Lemma col_expansion_32 b fuel : 0 <= b -> forall n m g, mat_of (R32_upto b) m n n g -> (n < fuel)%nat -> det_bound n b <= INT32_MAX ->
  exists d, col_expansion int32_ops fuel m = Ok d.
Proof.
  intros Hb n m g Hm Hf Hn. destruct (col_expansion_small int32_ops eq INT32_MAX) with (b := b) (fuel := fuel) (n := n) (m := m) (g := g) as (d & Ed & _); auto; try discriminate; try (intros x y a c -> ->; apply i32_upto).
  - intros x y a c _ _. eexists. reflexivity.
  - exists d. exact Ed.
Qed.
(** the operations on ints that hold values are exact or undefined *)
Lemma R32_op f op : (forall a b, op a b = i32 (f a b)) -> binary_exact may_overflow R32 op f.
Proof.
  intros H x y a b [-> _] [-> _]. rewrite H. destruct (fits_dec (f a b)) as [Hz|Hz].
  - rewrite i32_fits by auto. apply ret_ok. split; auto.
  - rewrite i32_over by auto. apply ret_overflow. auto.
Qed.
Lemma R32_opA f op : (forall a b, op a (Some b) = i32 (f a b)) -> (forall a, op a None = i32 (f a a)) -> assign_exact may_overflow R32 R32 R32 op f.
Proof.
  intros H1 H2. split.
  - intros x y a b [-> _] [-> _]. rewrite H1. destruct (fits_dec (f a b)) as [Hz|Hz].
    + rewrite i32_fits by auto. apply ret_ok. split; auto.
    + rewrite i32_over by auto. apply ret_overflow. auto.
  - intros x a [-> _] _. rewrite H2. destruct (fits_dec (f a a)) as [Hz|Hz].
    + rewrite i32_fits by auto. apply ret_ok. split; auto.
    + rewrite i32_over by auto. apply ret_overflow. auto.
Qed.
Lemma R32_eq x y a b : R32 x a -> R32 y b -> ret may_overflow (eqb int32_ops x y) (fun e => e = true <-> a = b).
Proof. intros [-> _] [-> _]. apply ret_ok. apply Z.eqb_eq. Qed.
