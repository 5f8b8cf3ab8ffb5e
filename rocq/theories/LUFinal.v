(** determinant() of Mat<double>: it is nearly the determinant of a matrix near the given one. *)
From Coq Require Import Reals Qreals QArith Lra Lia SpecFloat.
From Flocq Require Import Core BinarySingleNaN.
From Verif Require Import Base IntModel IntBasics FracModel FracSpec CommonModel CommonSpec CommonProofs ElemModel ElemSpec ElemProofs VecModel VecProofs
  MatModel MatSpec MatProofs MatElim DoubleModel DoubleSpec DoubleProofs DoubleVec DoubleRange DoubleMat DoubleElim DoubleCof LUSpec LUProofs LUAlg.
Local Open Scope R_scope.
Local Notation u := unit_roundoff.
Local Notation D := double_ops.

Lemma moves_injective n b q : moves n b q -> forall i i', (i < n)%nat -> (i' < n)%nat -> q i = q i' -> i = i'.
Proof.
  intros Mv. induction Mv as [|b q x y Hx Hy N Mv IH]; intros i i' Hi Hi' E; [exact E|].
  apply IH in E.
  - unfold trans in E. repeat match type of E with context [(?a =? ?b)%nat] => destruct (Nat.eqb_spec a b) end; lia.
  - unfold trans. repeat match goal with |- context [(?a =? ?b)%nat] => destruct (Nat.eqb_spec a b) end; lia.
  - unfold trans. repeat match goal with |- context [(?a =? ?b)%nat] => destruct (Nat.eqb_spec a b) end; lia.
Qed.
Lemma Q2R_prod n f : Q2R (Qprod n f) = Rprod n (fun i => Q2R (f i)).
Proof. induction n as [|n IH]; cbn [Qprod Rprod]; [unfold Q2R; cbn; lra|]. rewrite Q2R_mult, IH. reflexivity. Qed.
Lemma Rprod_ext n f g : (forall i, (i < n)%nat -> f i = g i) -> Rprod n f = Rprod n g.
Proof. induction n as [|n IH]; intros H; cbn [Rprod]; [reflexivity|]. rewrite IH, H by auto. reflexivity. Qed.
Lemma mat_all_bins x n g : mat_of eq x n n g -> (forall i j, (i < n)%nat -> (j < n)%nat -> double (g i j)) -> mat_of Rb x n n (fun i j => bin_of (g i j)).
Proof.
  intros (Hr & Hc & L & H) Hd. split; [exact Hr|]. split; [exact Hc|]. split; [exact L|]. intros i j Hi Hj. destruct (H i j Hi Hj) as (d & E & ->). exists (g i j). split; [exact E|].
  unfold Rb. symmetry. apply bin_of_ok, Hd; auto.
Qed.
Theorem determinant_near n m g : (3 <= n)%nat -> mat_of eq m n n g -> (forall i j, (i < n)%nat -> (j < n)%nat -> double (g i j)) ->
  exists d, determinant D m = Ok d /\ double d /\ (finite d -> ~ (dval d == 0)%Q ->
    (forall i j, (i < n)%nat -> (j < n)%nat -> finite (g i j)) /\ near_determinant n g d).
Proof.
  intros Hn Hm Hg. destruct (determinant_bin n m _ Hn (mat_all_bins m n g Hm Hg)) as (d & E & H). exists (B2SF d). split; [exact E|]. split; [apply double_bin|].
  intros F N. destruct H as (g' & q & M & s & St & Mv & Gp & V).
  { split; [apply finite_equiv, F|]. intros Z. apply N. apply eqR_Qeq. change (Q2R (dval (B2SF d))) with (dR (B2SF d)). rewrite dR_bin, Z. unfold Q2R. cbn. lra. }
  destruct St as [Fin Up _ Row Ex Err].
  assert (Dg : forall i j, (i < n)%nat -> (j < n)%nat -> B2SF (bin_of (g i j)) = g i j) by (intros; apply bin_of_ok; auto).
  assert (Dv : forall k, Q2R (upper_of g' k k) = B2R (g' k k)) by (intros k; unfold upper_of; rewrite Nat.ltb_irrefl; apply qv_val).
  split. { intros i j Hi Hj. rewrite <- Dg by auto. apply finite_equiv, Fin; lia. }
  set (sq := if s then (- inject_Z 1)%Q else inject_Z 1).
  assert (Sq : Q2R sq = if s then -1 else 1) by (unfold sq; destruct s; unfold Q2R; cbn; lra).
  assert (Det : (Qdet n (Qmat n M (upper_of g')) == sq * Qprod n (fun k => upper_of g' k k))%Q).
  { apply (det_factors (b := s) (q := q)); [exact Mv| |].
    - intros i Hi. destruct (Row i ltac:(lia)) as (R1 & R2 & R3). split; [lia|]. split; [exact R2|exact R3].
    - intros i j Hij. unfold upper_of. destruct (Nat.ltb_spec j i); [reflexivity|lia]. }
  exists M, (upper_of g'), q, sq. splits.
  - unfold sq. destruct s; [right|left]; reflexivity.
  - split; [|split].
    + intros i Hi. destruct (Row i ltac:(lia)) as (R1 & R2 & R3). split; [lia|]. split; [exact R2|exact R3].
    + apply (moves_injective n s q Mv).
    + intros i j Hij. unfold upper_of. destruct (Nat.ltb_spec j i); [reflexivity|lia].
  - intros k j Hkj. exists (B2SF (g' k j)). split; [apply double_bin|]. split; [apply finite_equiv, Up; [lia|exact Hkj]|]. unfold upper_of. destruct (Nat.ltb_spec j k); [lia|reflexivity].
  - intros k Hk Z. destruct (prod_good g' n Gp k ltac:(lia)) as [_ [_ Nk]]; [exact Hk|]. apply Nk. rewrite <- Dv, (Qeq_eqR _ _ Z). unfold Q2R. cbn. lra.
  - intros i j Hi Hj c. pose proof (Err i j ltac:(lia) ltac:(lia)) as H. rewrite !Nat.sub_0_r in H. cbn zeta in H. fold c in H. cbn [Nat.add] in H.
    assert (Eg : Q2R (dval (g i j)) = B2R (bin_of (g i j))) by (rewrite <- (Dg i j) at 1 by auto; apply dR_bin).
    assert (Em : Q2R (Qmat n M (upper_of g') i j) = Rsum n (term M g' i j)) by (unfold Qmat; rewrite Q2R_sum; apply Rsum_ext; intros; apply Q2R_mult).
    split.
    + intros C. apply eqR_Qeq. rewrite Eg, Em. pose proof (Ex i j ltac:(lia) ltac:(lia)) as X. rewrite Nat.sub_0_r in X. cbn [Nat.add] in X. apply X. lia.
    + rewrite Eg, Em. rewrite (Rsum_ext c (fun k => 1 + / Rabs (Q2R (upper_of g' k k))) (fun k => 1 + / Rabs (B2R (g' k k)))) by (intros; rewrite Dv; reflexivity). exact H.
  - exact Det.
  - exists (fun k => B2SF (prod_to g' k)). split; [cbn [prod_to]; rewrite dR_bin; apply one_val|]. split; [|split].
    + intros k Hk. destruct (prod_good g' n Gp k ltac:(lia)) as [[Fk _] Gk]. destruct (Gk Hk) as [Fg _]. split; [apply finite_equiv, Fk|]. rewrite Dv. cbn [prod_to]. rewrite <- mul_equiv. rewrite dR_bin.
      apply mul_rounded; apply bin_double; assumption.
    + apply finite_equiv, Gp.
    + rewrite !dR_bin, V, Sq. reflexivity.
  - intros Hp. rewrite (Qeq_eqR _ _ Det), Q2R_mult, Sq, Q2R_prod, dR_bin, V. rewrite (Rprod_ext n _ (fun k => B2R (g' k k))) by (intros; apply Dv).
    pose proof (prod_close g' n ltac:(lia) Gp) as C.
    assert (C' : Rabs (B2R (prod_to g' n) - Rprod n (fun i => B2R (g' i i))) <= ((1 + u) ^ (n - 1) - 1) * Rabs (Rprod n (fun i => B2R (g' i i)))).
    { apply C. intros k Hk. rewrite <- (Rprod_ext k (fun i => Q2R (upper_of g' i i))) by (intros; apply Dv). apply Hp, Hk. }
    destruct s; [|rewrite !Rmult_1_l; exact C'].
    replace (-1 * B2R (prod_to g' n) - -1 * Rprod n (fun k => B2R (g' k k))) with (- (B2R (prod_to g' n) - Rprod n (fun k => B2R (g' k k)))) by ring. rewrite Rabs_Ropp.
    replace (-1 * Rprod n (fun k => B2R (g' k k))) with (- Rprod n (fun k => B2R (g' k k))) by ring. rewrite Rabs_Ropp. exact C'.
Qed.
