(** rref() and inverse() of Mat<double>: the results are exactly reduced, of matrices near the
    given ones. *)
From Coq Require Import Reals Qreals QArith Qabs Lra Lia SpecFloat.
From Flocq Require Import Core BinarySingleNaN.
From Verif Require Import Base IntModel IntBasics FracModel FracSpec CommonModel CommonSpec CommonProofs ElemModel ElemSpec ElemProofs VecModel VecProofs
  MatModel MatSpec MatProofs MatElim DoubleModel DoubleSpec DoubleProofs DoubleVec DoubleRange DoubleMat DoubleElim DoubleCof LUSpec LUProofs JordanSpec JordanProofs JordanAlg.
Local Open Scope R_scope.
Local Notation u := unit_roundoff.
Local Notation D := double_ops.

Lemma mat_bins x n c g : mat_of eq x n c g -> (forall i j, (i < n)%nat -> (j < c)%nat -> double (g i j)) -> mat_of Rb x n c (fun i j => bin_of (g i j)).
Proof.
  intros (Hr & Hc & L & H) Hd. split; [exact Hr|]. split; [exact Hc|]. split; [exact L|]. intros i j Hi Hj. destruct (H i j Hi Hj) as (d & E & ->). exists (g i j). split; [exact E|].
  unfold Rb. symmetry. apply bin_of_ok, Hd; auto.
Qed.
Lemma mat_doubles x n c h : mat_of Rb x n c h -> mat_of eq x n c (fun i j => B2SF (h i j)).
Proof. intros (Hr & Hc & L & H). split; [exact Hr|]. split; [exact Hc|]. split; [exact L|]. intros i j Hi Hj. exact (H i j Hi Hj). Qed.
Lemma near_R n c l (a h : nat -> nat -> Q) (g v : nat -> nat -> R) : (forall i j, (i < n)%nat -> (j < c)%nat -> Q2R (a i j) = g i j) -> (forall i j, (i < n)%nat -> (j < c)%nat -> Q2R (h i j) = v i j) ->
  nears n c l g v -> near_steps n c l a h.
Proof.
  intros Ea Eh N i j Hi Hj. specialize (N i j Hi Hj). rewrite !Q2R_mat, Q2R_sum, Ea by auto.
  rewrite (Rsum_ext n (fun k => Q2R (product n l i k) * Q2R (h k j)) (fun k => Q2R (product n l i k) * v k j)) by (intros; rewrite Eh by auto; reflexivity).
  rewrite (Rsum_ext n (fun k => Q2R (sizes n l i k) * Q2R (abs h k j)) (fun k => Q2R (sizes n l i k) * Rabs (v k j))) by (intros; unfold abs; rewrite Q2R_abs, Eh by auto; reflexivity).
  exact N.
Qed.
Lemma Qeq_R q z : Q2R q = IZR z -> (q == inject_Z z)%Q.
Proof. intros E. apply eqR_Qeq. rewrite E. unfold Q2R. cbn. lra. Qed.
Lemma shape_reduced n c rank piv (h : nat -> nat -> Q) (v : nat -> nat -> R) : (rank <= n)%nat -> (forall i j, (i < n)%nat -> (j < c)%nat -> Q2R (h i j) = v i j) ->
  shape n rank c piv v -> reduced_form n c rank piv h.
Proof.
  intros Hr E (Pv & Inc & Low). split; [exact Hr|]. split; [|split; [exact Inc|]].
  - intros a Ha. destruct (Pv a Ha) as (L & One & Left & Col). split; [exact L|]. split; [|split].
    + apply (Qeq_R _ 1). rewrite E by lia. exact One.
    + intros j Hj. apply (Qeq_R _ 0). rewrite E by lia. apply Left, Hj.
    + intros i Hi Ni. apply (Qeq_R _ 0). rewrite E by lia. apply Col; auto.
  - intros i j Hi Hj. apply (Qeq_R _ 0). rewrite E by lia. apply Low; auto.
Qed.
Lemma shape_start n piv v : shape n 0 0 piv v.
Proof. split; [|split]; intros; lia. Qed.
Lemma inplace_bin n c m g : mat_of Rb m n c g -> sret never (inplace_rref D m) (reduced n c 0 0 g).
Proof. intros Hm. unfold inplace_rref. destruct (mat_of_dims Rb m n c g Hm) as (-> & _). apply rref_rows_bin; auto; lia. Qed.

Theorem rref_near n c m g : mat_of eq m n c g -> (forall i j, (i < n)%nat -> (j < c)%nat -> double (g i j)) ->
  exists z h, rref D m = Ok z /\ mat_of eq z n c h /\ (forall i j, (i < n)%nat -> (j < c)%nat -> double (h i j)) /\
    ((forall i j, (i < n)%nat -> (j < c)%nat -> finite (h i j)) -> (forall i j, (i < n)%nat -> (j < c)%nat -> finite (g i j)) /\
      exists piv l, valid_steps n 0 l /\ ~ (Qdet n (product n l) == 0)%Q /\
        reduced_form n c (length l) piv (fun i j => dval (h i j)) /\ near_steps n c l (fun i j => dval (g i j)) (fun i j => dval (h i j))).
Proof.
  intros Hm Hg. assert (Dg : forall i j, (i < n)%nat -> (j < c)%nat -> B2SF (bin_of (g i j)) = g i j) by (intros; apply bin_of_ok; auto).
  assert (R : ret never (rref D m) (reduced n c 0 0 (fun i j => bin_of (g i j)))).
  { unfold rref. eapply ret_bind; [apply (Mat_copy_ok D never Rb m n c _ (mat_bins m n c g Hm Hg))|]. intros d Hd. apply ret_final, inplace_bin, Hd. }
  destruct (ret_False _ _ R) as (z & E & h & Hz & H). exists z, (fun i j => B2SF (h i j)). split; [exact E|]. split; [apply mat_doubles, Hz|]. split; [intros; apply double_bin|].
  intros F. destruct H as (Fg & l & Hl & Val & Near & Sh); [intros; apply finite_equiv, F; auto|]. split; [intros i j Hi Hj; rewrite <- Dg by auto; apply finite_equiv, Fg; auto|].
  destruct (Sh _ (shape_start n (fun _ => 0%nat) _)) as (piv & Sp). cbn [Nat.add] in *. exists piv, l. split; [exact Val|]. split; [exact (det_steps Val)|].
  assert (Eg : forall i j, (i < n)%nat -> (j < c)%nat -> Q2R (dval (g i j)) = B2R (bin_of (g i j))) by (intros i j Hi Hj; rewrite <- (Dg i j) at 1 by auto; apply dR_bin).
  split.
  - apply (shape_reduced n c (length l) piv _ (fun i j => B2R (h i j))); auto. intros. apply dR_bin.
  - apply (near_R n c l _ _ (fun i j => B2R (bin_of (g i j))) (fun i j => B2R (h i j))); [exact Eg| |exact Near]. intros. apply dR_bin.
Qed.

(** *** inverse *)
Definition maybe {T} (p : outcome T) (Q : T -> Prop) : Prop := (snd p = Ok tt /\ Q (fst p)) \/ snd p = Throw DomainError.
Lemma maybe_sret {T} (p : outcome T) Q : sret never p Q -> maybe p Q.
Proof. intros H. left. apply sret_False, H. Qed.
Lemma maybe_mono {T} (p : outcome T) (Q Q' : T -> Prop) : maybe p Q -> (forall s, Q s -> Q' s) -> maybe p Q'.
Proof. intros [[E H]|E] K; [left|right]; auto. Qed.
Lemma maybe_andthen {T} (p : outcome T) k (P Q : T -> Prop) : maybe p P -> (forall s, P s -> maybe (k s) Q) -> maybe (andthen p k) Q.
Proof. destruct p as [s r]. intros [[E H]|E] K; cbn in *; subst r; [apply K, H|right; reflexivity]. Qed.
Lemma maybe_for {T} (I : nat -> T -> Prop) n : forall a body s, I a s -> (forall i s, (a <= i < a + n)%nat -> I i s -> maybe (body i s) (I (S i))) -> maybe (for_ n a body s) (I (a + n)%nat).
Proof.
  induction n as [|n IH]; intros a body s Hs Hb; cbn [for_].
  - left. rewrite Nat.add_0_r. split; [reflexivity|exact Hs].
  - eapply maybe_andthen; [apply Hb; [lia|exact Hs]|]. intros s' Hs'. replace (a + S n)%nat with (S a + n)%nat by lia. apply IH; [exact Hs'|]. intros i t Hi. apply Hb. lia.
Qed.
Lemma checked_loop n r identity res (h e : nat -> nat -> bin) : mat_of Rb r n (n + n) h -> mat_of Rb identity n n e -> dims res n n ->
  maybe (for2 n n (fun i j result =>
    eval result (x <- entry r i j ;; y <- entry identity i j ;; ElemModel.eqb D x y) (fun b : bool =>
      if b then eval result (entry r i (j + n)) (fun x => set_entry result i j x)
      else (result, Throw DomainError))) res)
    (fun d => mat_of Rb d n n (fun i j => h i (j + n)%nat) /\ forall i j, (i < n)%nat -> (j < n)%nat -> SFeqb (B2SF (h i j)) (B2SF (e i j)) = true).
Proof.
  intros Hr Hi Dres. set (Q := fun i j => holds (fun x => Rb x (h i (j + n)%nat))). set (any := fun (_ _ : nat) (_ : option spec_float) => True).
  set (I := fun i j d => matP d n n (mixed any Q i j) /\ forall a b, (b < n)%nat -> before i j a b = true -> SFeqb (B2SF (h a b)) (B2SF (e a b)) = true).
  eapply maybe_mono.
  - unfold for2. apply (maybe_for (fun i => I i 0%nat) n 0).
    + split; [|intros a b _; rewrite before_0; discriminate]. eapply matP_mono; [exact (matP_any _ _ _ Dres)|]. intros a b o _ _ _. unfold mixed. rewrite before_0. exact Logic.I.
    + intros i d Li Hd. eapply maybe_mono; [apply (maybe_for (I i) n 0); [exact Hd|]|].
      * intros j t Lj (Ht & Hb). destruct (ret_False _ _ (entry_of never Rb r n (n + n) h i j Hr ltac:(lia) ltac:(lia))) as (x & -> & ->). cbn [bind].
        destruct (ret_False _ _ (entry_of never Rb identity n n e i j Hi ltac:(lia) ltac:(lia))) as (y & -> & ->). cbn [bind eval].
        change (ElemModel.eqb D (B2SF (h i j)) (B2SF (e i j))) with (Ok (SFeqb (B2SF (h i j)) (B2SF (e i j)))). cbn [eval]. destruct (SFeqb (B2SF (h i j)) (B2SF (e i j))) eqn:Eq; [|right; reflexivity].
        apply maybe_sret. eapply sret_eval; [apply (entry_of never Rb r n (n + n) h i (j + n) Hr); lia|]. intros x Hx. cbn beta in Hx.
        eapply sret_mono; [eapply (set_ok never) with (Q := mixed any Q i (1 + j)); [exact Ht|lia|lia| |]|].
        -- unfold mixed. rewrite before_new. exists x. auto.
        -- intros i' j' o _ _ N. unfold mixed. rewrite before_other; auto.
        -- intros d' Hd'. split; [exact Hd'|]. intros a b Lb. destruct (Nat.eq_dec a i) as [->|Na]; [destruct (Nat.eq_dec b j) as [->|Nb]; [auto|]|]; (change (S j) with (1 + j)%nat; rewrite before_other by congruence; apply Hb, Lb).
      * intros t (Ht & Hb). cbn [Nat.add] in *. split.
        -- eapply matP_mono; [exact Ht|]. intros a b o _ Lb. unfold mixed. rewrite before_row by exact Lb. auto.
        -- intros a b Lb. change (S i) with (1 + i)%nat. rewrite <- (before_row i n) by exact Lb. apply Hb, Lb.
  - cbn [Nat.add]. intros d (Hd & Hb). split.
    + apply mat_of_P. eapply matP_mono; [exact Hd|]. intros a b o La Lb. unfold mixed, before. destruct (Nat.ltb_spec a n); [|lia]. auto.
    + intros i j Li Lj. apply Hb; [exact Lj|]. unfold before. destruct (Nat.ltb_spec i n); [reflexivity|lia].
Qed.
Definition unit_bin (i j : nat) : bin := if (i =? j)%nat then one else zero.
Lemma same_unit (b : bin) i j : SFeqb (B2SF b) (B2SF (unit_bin i j)) = true -> is_finite b = true /\ B2R b = if (i =? j)%nat then 1 else 0.
Proof.
  intros E. rewrite eqb_equiv in E. assert (F : is_finite (unit_bin i j) = true) by (unfold unit_bin; destruct (i =? j)%nat; reflexivity).
  assert (Fb : is_finite b = true).
  { unfold unit_bin in E. destruct b as [s|[]| |s m k Hb]; try reflexivity; destruct (i =? j)%nat; discriminate E. }
  split; [exact Fb|]. rewrite Beqb_correct in E by auto. destruct (Req_bool_spec (B2R b) (B2R (unit_bin i j))) as [->|]; [|discriminate E]. unfold unit_bin. destruct (i =? j)%nat; [apply one_val|reflexivity].
Qed.
Theorem inverse_near n m g : mat_of eq m n n g -> (forall i j, (i < n)%nat -> (j < n)%nat -> double (g i j)) ->
  inverse D m = Throw DomainError \/
  exists z h, inverse D m = Ok z /\ mat_of eq z n n h /\ (forall i j, (i < n)%nat -> (j < n)%nat -> double (h i j)) /\
    ((forall i j, (i < n)%nat -> (j < n)%nat -> finite (h i j)) -> (forall i j, (i < n)%nat -> (j < n)%nat -> finite (g i j)) /\
      exists l, length l = n /\ valid_steps n 0 l /\ ~ (Qdet n (product n l) == 0)%Q /\
        near_steps n n l (fun i j => dval (g i j)) identity /\ near_steps n n l identity (fun i j => dval (h i j))).
Proof.
  intros Hm Hg. assert (Dg : forall i j, (i < n)%nat -> (j < n)%nat -> B2SF (bin_of (g i j)) = g i j) by (intros; apply bin_of_ok; auto).
  pose proof (mat_bins m n n g Hm Hg) as Hb. unfold inverse. destruct (mat_of_dims Rb m n n _ Hb) as (Dr & Dc & _). rewrite Dr, Dc, Nat.eqb_refl. cbn [negb].
  destruct (ret_False _ _ (identityMatrix_ok D never Rb n zero one eq_refl one_SF)) as (id & -> & Hid). cbn [bind]. change (mat_of Rb id n n unit_bin) in Hid.
  destruct (ret_False _ _ (augmentedMatrix_ok D never Rb m id n n n _ _ Hb Hid)) as (a & -> & Ha). cbn [bind]. set (ga := fun i j => if (j <? n)%nat then bin_of (g i j) else unit_bin i (j - n)) in Ha.
  destruct (ret_False _ _ (ret_final never _ _ (inplace_bin n (n + n) a ga Ha))) as (r & -> & h & Hh & Red). cbn [bind].
  destruct (checked_loop n r id (Mat_new D n n) h unit_bin Hh Hid (dims_new D n n)) as [[E [Hz Same]]|E].
  2: { left. unfold final. rewrite E. reflexivity. }
  right. set (p := for2 n n _ _) in *. exists (fst p), (fun i j => B2SF (h i (j + n)%nat)). split; [unfold final; rewrite E; reflexivity|]. split; [apply mat_doubles, Hz|]. split; [intros; apply double_bin|].
  intros F. destruct Red as (Fa & l & Hl & Val & Near & Sh).
  { intros i j Hi Hj. destruct (Nat.lt_ge_cases j n) as [L|L]; [apply (same_unit (h i j) i j), Same; auto|]. replace j with (j - n + n)%nat by lia. apply finite_equiv, F; lia. }
  split. { intros i j Hi Hj. rewrite <- Dg by auto. apply finite_equiv. specialize (Fa i j Hi ltac:(lia)). unfold ga in Fa. destruct (Nat.ltb_spec j n); [exact Fa|lia]. }
  destruct (Sh _ (shape_start n (fun _ => 0%nat) _)) as (piv & _ & _ & Low). cbn [Nat.add] in *.
  assert (Len : length l = n).
  { destruct (Nat.eq_dec (length l) n) as [|N]; [assumption|]. exfalso. destruct (same_unit (h (length l) (length l)) (length l) (length l)) as (_ & V); [apply Same; lia|]. rewrite Nat.eqb_refl in V. rewrite Low in V by lia. lra. }
  exists l. split; [exact Len|]. split; [exact Val|]. split; [exact (det_steps Val)|].
  assert (Un : forall i j, Q2R (identity i j) = if (i =? j)%nat then 1 else 0) by (intros i j; unfold identity; destruct (i =? j)%nat; [apply Q2R_1|apply Q2R_0]).
  split.
  - apply (near_R n n l _ _ (fun i j => B2R (ga i j)) (fun i j => B2R (h i j))).
    + intros i j Hi Hj. unfold ga. destruct (Nat.ltb_spec j n); [|lia]. rewrite <- (Dg i j) at 1 by auto. apply dR_bin.
    + intros i j Hi Hj. rewrite Un. symmetry. apply same_unit, Same; auto.
    + intros i j Hi Hj. apply Near; lia.
  - apply (near_R n n l _ _ (fun i j => B2R (ga i (j + n)%nat)) (fun i j => B2R (h i (j + n)%nat))).
    + intros i j Hi Hj. unfold ga. destruct (Nat.ltb_spec (j + n) n); [lia|]. replace (j + n - n)%nat with j by lia. rewrite Un. unfold unit_bin. destruct (i =? j)%nat; [rewrite one_val|]; reflexivity.
    + intros i j Hi Hj. apply dR_bin.
    + intros i j Hi Hj. apply Near; lia.
Qed.

(** *** The product of the matrix and its computed inverse *)
Theorem near_residual n l a z : near_steps n n l a identity -> near_steps n n l identity z -> forall i j, (i < n)%nat -> (j < n)%nat ->
  Rabs (Q2R (Qmat n a z i j) - Q2R (identity i j)) <=
    2 * (((1 + u) ^ length l - 1) * Q2R (Qmat n (sizes n l) (abs z) i j)) + (1 + u) ^ length l * half_least * Q2R (Qsum n (stages n l i)) * (1 + Q2R (Qsum n (fun k => Qabs (z k j)))).
Proof.
  intros HA HI i j Hi Hj. specialize (HI i j Hi Hj). set (P := (1 + u) ^ length l) in *. set (b := P * half_least * Q2R (Qsum n (stages n l i))) in *.
  assert (HA' : forall k, (k < n)%nat -> Rabs (Q2R (a i k) - Q2R (product n l i k)) <= (P - 1) * Q2R (sizes n l i k) + b).
  { intros k Hk. pose proof (HA i k Hi Hk) as H. fold P in H. fold b in H. rewrite !Q2R_mat in H.
    assert (S1 : forall f, Rsum n (fun m => f m * Q2R (identity m k)) = f k).
    { intros f. rewrite (Rsum_one n k); [|exact Hk|].
      - unfold identity. rewrite Nat.eqb_refl, Q2R_1. ring.
      - intros m _ N. unfold identity. destruct (Nat.eqb_spec m k); [lia|]. rewrite Q2R_0. ring. }
    rewrite S1 in H. rewrite (Rsum_ext n (fun m => Q2R (sizes n l i m) * Q2R (abs identity m k)) (fun m => Q2R (sizes n l i m) * Q2R (identity m k))) in H.
    - rewrite S1 in H. exact H.
    - intros m _. f_equal. unfold abs. rewrite Q2R_abs. apply Rabs_pos_eq. unfold identity. destruct (m =? k)%nat; rewrite ?Q2R_1, ?Q2R_0; lra. }
  rewrite !Q2R_mat in *. rewrite (Q2R_sum n (fun k => Qabs (z k j))).
  set (W := Rsum n (fun k => Q2R (sizes n l i k) * Q2R (abs z k j))) in *. set (BZ := Rsum n (fun k => Q2R (product n l i k) * Q2R (z k j))) in *. set (Sz := Rsum n (fun k => Q2R (Qabs (z k j)))).
  set (AZ := Rsum n (fun k => Q2R (a i k) * Q2R (z k j))).
  assert (AB : Rabs (AZ - BZ) <= (P - 1) * W + b * Sz).
  { replace (AZ - BZ) with (Rsum n (fun k => (Q2R (a i k) - Q2R (product n l i k)) * Q2R (z k j))).
    2: { unfold AZ, BZ. rewrite (Rsum_ext n _ (fun k => Q2R (a i k) * Q2R (z k j) + -1 * (Q2R (product n l i k) * Q2R (z k j)))) by (intros; ring). rewrite Rsum_plus, Rsum_scale. ring. }
    eapply Rle_trans; [apply Rsum_abs|]. unfold W, Sz. rewrite <- !Rsum_scale, <- Rsum_plus. apply Rsum_le. intros k Hk. rewrite Rabs_mult. unfold abs. rewrite Q2R_abs.
    pose proof (Rabs_pos (Q2R (z k j))). specialize (HA' k Hk). apply Rle_trans with (((P - 1) * Q2R (sizes n l i k) + b) * Rabs (Q2R (z k j))); [apply Rmult_le_compat_r; auto|]. lra. }
  replace (AZ - Q2R (identity i j)) with ((AZ - BZ) - (Q2R (identity i j) - BZ)) by ring. eapply Rle_trans; [apply Rabs_triang|]. rewrite Rabs_Ropp. lra.
Qed.
