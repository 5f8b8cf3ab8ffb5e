(** Linear algebra used for Mat: determinants and row operations of matrices given
    by functions on indices (mathematical components). *)
From mathcomp Require Import all_ssreflect fingroup perm all_algebra zify.
Set Implicit Arguments. Unset Strict Implicit. Unset Printing Implicit Defensive.
Import GRing.Theory.
Local Open Scope ring_scope.

(** the r x c matrix with entries g i j *)
Definition mx {A : ringType} (r c : nat) (g : nat -> nat -> A) : 'M[A]_(r, c) := \matrix_(i, j) g i j.

Section Ring.
Context {A : ringType}.
Implicit Types (g h : nat -> nat -> A).
Lemma mx_ext r c g h : (forall i j, (i < r)%N -> (j < c)%N -> g i j = h i j) -> mx r c g = mx r c h.
Proof. by move=> H; apply/matrixP=> i j; rewrite !mxE H. Qed.
Lemma mx_inj r c g h : mx r c g = mx r c h -> forall i j, (i < r)%N -> (j < c)%N -> g i j = h i j.
Proof. by move=> /matrixP H i j Hi Hj; move: (H (Ordinal Hi) (Ordinal Hj)); rewrite !mxE. Qed.
Lemma mx_mul n m p g h : mx n m g *m mx m p h = mx n p (fun i j => \sum_(0 <= k < m) g i k * h k j).
Proof. apply/matrixP=> i j. rewrite !mxE big_mkord. by apply: eq_bigr => k _; rewrite !mxE. Qed.
End Ring.

Section Det.
Context {A : comRingType}.
Implicit Types (g h : nat -> nat -> A).

Definition minor (p q : nat) g (i j : nat) : A := g (bump p i) (bump q j).
Lemma mx_minor n g (p q : 'I_n.+1) : row' p (col' q (mx n.+1 n.+1 g)) = mx n n (minor p q g).
Proof. by apply/matrixP=> i j; rewrite !mxE. Qed.
Lemma det_row n g : \det (mx n.+1 n.+1 g) = \sum_(0 <= k < n.+1) (-1) ^+ k * (g 0%N k * \det (mx n n (minor 0 k g))).
Proof.
  rewrite (expand_det_row _ ord0) big_mkord. apply: eq_bigr => k _. rewrite /cofactor mx_minor !mxE /=.
  by rewrite add0n mulrCA.
Qed.
Lemma det_col n g : \det (mx n.+1 n.+1 g) = \sum_(0 <= k < n.+1) (-1) ^+ k * (g k 0%N * \det (mx n n (minor k 0 g))).
Proof.
  rewrite (expand_det_col _ ord0) big_mkord. apply: eq_bigr => k _. rewrite /cofactor mx_minor !mxE /=.
  by rewrite addn0 mulrCA.
Qed.
Lemma det0 g : \det (mx 0 0 g) = 1.
Proof. by rewrite det_mx00. Qed.
Lemma det1 g : \det (mx 1 1 g) = g 0%N 0%N.
Proof. by rewrite det_row big_nat1 det0 expr0 mul1r mulr1. Qed.
Lemma det2 g : \det (mx 2 2 g) = g 0%N 0%N * g 1%N 1%N - g 0%N 1%N * g 1%N 0%N.
Proof. by rewrite det_row big_nat_recr //= big_nat1 !det1 /minor /bump /= expr0 mul1r expr1 mulN1r. Qed.

Lemma det_swap n g a b : (a < n)%N -> (b < n)%N -> a != b ->
  \det (mx n n (fun i j => g (if i == a then b else if i == b then a else i) j)) = - \det (mx n n g).
Proof.
  move=> Ha Hb N. set oa := Ordinal Ha; set ob := Ordinal Hb.
  have -> : mx n n (fun i j => g (if i == a then b else if i == b then a else i) j) = perm_mx (tperm oa ob) *m mx n n g.
  { rewrite -row_permE. apply/matrixP=> i j. rewrite !mxE. congr (g _ _).
    case: tpermP => [->|->|]; rewrite /= ?eqxx //.
    - by rewrite eq_sym (negbTE N).
    - move=> /eqP; rewrite -val_eqE /= => /negbTE -> /eqP. by rewrite -val_eqE /= => /negbTE ->. }
  by rewrite det_mulmx det_perm odd_tperm -val_eqE /= N expr1 mulN1r.
Qed.

(** subtracting multiples of row r from later rows *)
Lemma det_rowops n g r (u : nat -> A) : (r < n)%N -> (forall i, (i <= r)%N -> u i = 0) ->
  \det (mx n n (fun i j => g i j - u i * g r j)) = \det (mx n n g).
Proof.
  move=> Hr Hu. pose L := mx n n (fun i k => (i == k)%:R - (if k == r then u i else 0)).
  have -> : mx n n (fun i j => g i j - u i * g r j) = L *m mx n n g.
  { apply/matrixP=> i j. rewrite !mxE.
    rewrite (eq_bigr (fun k : 'I_n => (i == k)%:R * g k j - (if val k == r then u i else 0) * g k j)); last first.
    - move=> k _. by rewrite !mxE mulrBl.
    rewrite big_split /= sumrN. congr (_ - _).
    - rewrite (bigD1 i) //= eqxx mul1r big1 ?addr0 // => k. by rewrite eq_sym => /negbTE ->; rewrite mul0r.
    - rewrite (bigD1 (Ordinal Hr)) //= eqxx big1 ?addr0 // => k. rewrite -val_eqE /= => /negbTE ->. by rewrite mul0r. }
  rewrite det_mulmx (_ : \det L = 1) ?mul1r //. rewrite det_trig.
  - apply: big1 => i _. rewrite !mxE eqxx. case: eqP => [E|_]; rewrite ?subr0 // Hu ?subr0 // E //.
  - apply/is_trig_mxP => i j Hij. rewrite !mxE.
    rewrite (_ : (nat_of_ord i == nat_of_ord j) = false); last by rewrite ltn_eqF.
    case: eqP => [E|_]; rewrite ?subr0 // Hu ?subr0 //. by rewrite -E ltnW.
Qed.

(** upper triangular *)
Lemma det_upper n g : (forall i j, (j < i)%N -> (i < n)%N -> g i j = 0) -> \det (mx n n g) = \prod_(0 <= i < n) g i i.
Proof.
  move=> H. rewrite -det_tr det_trig.
  - rewrite big_mkord. by apply: eq_bigr => i _; rewrite !mxE.
  - apply/is_trig_mxP => i j Hij. rewrite !mxE. by apply: H.
Qed.
(** the first r+1 columns only use the first r rows *)
Lemma det_deficient n g r : (r < n)%N -> (forall i j, (j <= r)%N -> (r <= i < n)%N -> g i j = 0) -> \det (mx n n g) = 0.
Proof.
  move=> Hr H. rewrite /determinant. apply: big1 => s _.
  case: (boolP [exists i : 'I_n, (r <= i)%N && (s i <= r)%N]) => [/existsP [i /andP [H1 H2]]|/existsPn N].
  - rewrite (bigD1 i) //= mxE H ?mul0r ?mulr0 //. by rewrite H1 /=.
  - exfalso.
    have F (j : 'I_r.+1) : ((s^-1)%g (widen_ord Hr j) < r)%N.
    { move: (N ((s^-1)%g (widen_ord Hr j))). rewrite permKV /= negb_and -ltnNge => /orP [//|]. by rewrite -ltnS ltn_ord. }
    have I : injective (fun j : 'I_r.+1 => Ordinal (F j)).
    { move=> j k [/val_inj /perm_inj E]. apply: val_inj. by case: E. }
    move: (leq_card _ I). by rewrite !card_ord ltnn.
Qed.
End Det.
