(** Gaussian elimination computes the determinant over a field (src/Mat.hpp:357-403). *)
From Verif Require Import Base IntModel ElemModel ElemSpec ElemProofs VecModel MatModel MatSpec MatProofs MatElim.
From mathcomp Require Import all_ssreflect fingroup perm all_algebra zify.
From Verif Require Import MatAlg MatCof.
Set Implicit Arguments. Unset Strict Implicit. Unset Printing Implicit Defensive.
Import GRing.Theory.
Local Open Scope ring_scope.

Lemma trans_eq a b i : trans a b i = if i == a then b else if i == b then a else i.
Proof. rewrite /trans. by case: (PeanoNat.Nat.eqb_spec i a) => [->|/eqP/negbTE ->]; rewrite ?eqxx //; case: (PeanoNat.Nat.eqb_spec i b) => [->|/eqP/negbTE ->]; rewrite ?eqxx. Qed.

Section Det.
Context {T : Type} {F : fieldType} (E : ops T) (ab : halt -> Prop) (R : T -> F -> Prop).
Hypotheses (H0 : R (of_int E 0) 0) (H1 : R (of_int E 1) 1) (Hn1 : R (of_int E (-1)) (-1))
  (HsubA : assign_exact ab R R R (subA E) (fun a b => a - b)) (HmulA : assign_exact ab R R R (mulA E) *%R)
  (Hsub : binary_exact ab R (sub E) (fun a b => a - b)) (Hmul : binary_exact ab R (mul E) *%R)
  (Hdiv : forall x y a b, R x a -> R y b -> b <> 0 -> ret ab (ElemModel.div E x y) (fun z => R z (a / b)))
  (Heq : forall x y a b, R x a -> R y b -> ret ab (ElemModel.eqb E x y) (fun e => e = true <-> a = b)).

Let det n (g : nat -> nat -> F) : F := \det (mx n n g).

Lemma det_trans n g a b : (a < n)%N -> (b < n)%N -> a <> b -> det n (fun i j => g (trans a b i) j) = - det n g.
Proof.
  move=> Ha Hb /eqP N. rewrite /det. transitivity (\det (mx n n (fun i j => g (if i == a then b else if i == b then a else i) j))).
  - apply: f_equal. apply: mx_ext => i j _ _. by rewrite trans_eq.
  - exact: det_swap.
Qed.
Definition cleared (g : nat -> nat -> F) r p (i j : nat) : F :=
  if (PeanoNat.Nat.ltb p i && PeanoNat.Nat.leb p j)%bool then g i j - g i p * g r j / g r p else g i j.
Lemma det_cleared n g r p : (r < n)%N -> (r <= p)%N -> (forall j, (j < p)%N -> g r j = 0) -> det n (cleared g r p) = det n g.
Proof.
  move=> Hr Hp Hz. rewrite /det -(@det_rowops _ n g r (fun i => if (p < i)%N then g i p / g r p else 0)) //; last first.
  { move=> i Hi. by have -> : (p < i)%N = false by lia. }
  apply: f_equal. apply: mx_ext => i j _ _. rewrite /cleared.
  case: (PeanoNat.Nat.ltb_spec p i) => L /=.
  - have -> : (p < i)%N by lia. case: (PeanoNat.Nat.leb_spec p j) => L'.
    + by rewrite mulrAC.
    + rewrite (Hz j); last by lia. by rewrite mulr0 subr0.
  - have -> : (p < i)%N = false by lia. by rewrite mul0r subr0.
Qed.

Definition signed (f : F) : Prop := f = 1 \/ f = -1.
Lemma signed_neg f : signed f -> signed (f * -1).
Proof. by move=> [->|->]; [right; rewrite mul1r|left; rewrite mulrNN mulr1]. Qed.
Lemma signed_nz f : signed f -> f <> 0.
Proof. by move=> [->|->]; apply/eqP; rewrite ?oppr_eq0 oner_neq0. Qed.
Lemma signed_div f x : signed f -> x / f = f * x.
Proof. by move=> [->|->]; rewrite ?invrN invr1 ?mulr1 ?mul1r ?mulrN1 ?mulN1r. Qed.

(** the state before row r: either no column has been skipped and the first r columns
    are in upper triangular form, or the determinant is 0 and so is an entry of the
    diagonal above row r *)
Definition det_inv n (D : F) r p (g : nat -> nat -> F) (f : F) : Prop :=
  signed f /\ (r <= p)%N /\
  ((p = r /\ D = f * det n g /\ forall i j, (j < r)%N -> (j < i)%N -> (i < n)%N -> g i j = 0) \/
   (D = 0 /\ exists2 k, (k < r)%N & g k k = 0)).
Definition det_post n (D : F) (g : nat -> nat -> F) (f : F) : Prop :=
  signed f /\ D = f * \prod_(0 <= i < n) g i i.

Lemma prod_zero n (g : nat -> nat -> F) k : (k < n)%N -> g k k = 0 -> \prod_(0 <= i < n) g i i = 0.
Proof. move=> Hk Hz. rewrite big_mkord (bigD1 (Ordinal Hk)) //=. by rewrite Hz mul0r. Qed.
Lemma det_end n D r p g f : det_inv n D r p g f -> (r <= n)%N -> (r < n -> (n <= p) \/ forall i j, (r <= i < n) -> (p <= j < n) -> g i j = 0%R)%N ->
  det_post n D g f.
Proof.
  move=> [Sf [Hrp Hc]] Hr Hz. split=> //. case: Hc => [[Hp [-> Ht]]|[-> [k Hk Hkz]]].
  - congr (_ * _). apply: det_upper => i j Hij Hi. case: (ltnP j r) => L; first by apply: Ht.
    case: (Hz ltac:(lia)) => [|Hz']; first by lia. apply: Hz'; lia.
  - rewrite (@prod_zero n g k) ?mulr0 //. lia.
Qed.
(** one pivoting step *)
Lemma det_step n D r p g f i q : det_inv n D r p g f -> (r <= i < n)%N -> (p <= q < n)%N ->
  (forall k j, (r <= k < n)%N -> (p <= j < q)%N -> g k j = 0) -> g i q <> 0 ->
  det_inv n D r.+1 q.+1 (cleared (fun a b => g (trans i r a) b) r q) (if i == r then f else f * -1).
Proof.
  move=> [Sf [Hrp Hc]] Hi Hq Hz Hnz. set g1 := fun a b => g (trans i r a) b.
  have Tr : trans i r r = i by rewrite trans_eq eqxx; case: eqP.
  have Sf' : signed (if i == r then f else f * -1) by case: eqP => // _; apply: signed_neg.
  split=> //. split; first by lia.
  have Kr k : (k < r)%N -> trans i r k = k. { move=> Hk. rewrite trans_eq. by case: eqP => ?; [lia|case: eqP => ?; [lia|]]. }
  have Ck k j : (k <= q)%N -> cleared g1 r q k j = g1 k j.
  { move=> Hk. rewrite /cleared. case: (PeanoNat.Nat.ltb_spec q k) => //; lia. }
  case: Hc => [[Hp [HD Ht]]|[-> [k Hk Hkz]]]; last first.
  { right. split=> //. exists k; first by lia. rewrite Ck; last by lia. by rewrite /g1 Kr. }
  have Rz a j : (j < q)%N -> (r <= a < n)%N -> g a j = 0.
  { move=> Hj Ha. case: (ltnP j r) => L; first by apply: Ht; lia. apply: Hz; lia. }
  have Rt a : (r <= a < n)%N -> (r <= trans i r a < n)%N. { move=> Ha. rewrite trans_eq. by case: eqP => ?; [lia|case: eqP => ?; lia]. }
  case: (ltngtP q r) => Q; first by lia.
  - right. split; last by exists r => //; rewrite Ck ?(ltnW Q) // /g1 Tr; apply: Rz.
    rewrite HD /det (@det_deficient _ n g r) ?mulr0 //; first by lia.
    move=> a b Hb Ha. apply: Rz => //. lia.
  - left. split; first by rewrite Q. split.
    + rewrite det_cleared; [|lia|by rewrite Q|].
      * rewrite HD. case: eqP => [Ei|Ni].
        -- congr (_ * _). rewrite /det. apply: f_equal. apply: mx_ext => a b _ _. rewrite /g1 trans_eq Ei. by case: eqP => [->|].
        -- rewrite /g1 det_trans //; try lia. by rewrite mulrN1 mulrNN.
      * move=> j Hj. rewrite /g1 Tr. apply: Rz => //. 
    + move=> a b Hb Hab Ha. rewrite /cleared. case: (PeanoNat.Nat.leb_spec q b) => Lb.
      * have -> : b = q by lia. case: (PeanoNat.Nat.ltb_spec q a) => La /=; last by lia.
        rewrite mulfK ?subrr //. apply/eqP. by rewrite /g1 Tr.
      * rewrite andbF /g1. apply: Ht; first by lia.
        -- rewrite trans_eq. by case: eqP => ?; [lia|case: eqP => ?; lia].
        -- rewrite trans_eq. by case: eqP => ?; [lia|case: eqP => ?; lia].
Qed.

Lemma det_rows_ok n D k : forall r tmp factor p g f, (r + k = n)%N -> mat_of R tmp n n g -> R factor f -> det_inv n D r p g f ->
  ret ab (det_rows E k r tmp factor p) (fun '(t, f') => exists g' f0, mat_of R t n n g' /\ R f' f0 /\ det_post n D g' f0).
Proof.
  elim: k => [|k IH] r tmp factor p g f Hk Hm Hf HI; cbn [det_rows].
  { apply: ret_ok. exists g, f. split=> //. split=> //. apply: (det_end HI); lia. }
  have [Dr [Dc _]] := mat_of_dims R tmp n n g Hm. rewrite Dc.
  case: (PeanoNat.Nat.leb_spec n p) => L.
  { apply: ret_ok. exists g, f. split=> //. split=> //. apply: (det_end HI); [lia|by move=> _; left; lia]. }
  have Hr : lt r n by lia.
  eapply ret_bind; [exact (@find_pivot_start _ _ E ab R 0 H0 Heq tmp n n g r p Hm Hr L)|]. move=> o Ho. cbn beta in Ho.
  case: o Ho => [[i q]|] Ho; last first.
  { apply: ret_ok. exists g, f. split=> //. split=> //. apply: (det_end HI); first by lia.
    move=> _; right => a b Ha Hb. apply: Ho; lia. }
  have [Hi [Hq [Hnz Hz]]] := Ho.
  set g1 := fun a b => g (trans i r a) b.
  eapply (ret_bind ab) with (P := fun '(t, f') => mat_of R t n n g1 /\ R f' (if i == r then f else f * -1)).
  { case: (PeanoNat.Nat.eqb_spec i r) => [Ei|Ni].
    - apply: ret_ok. rewrite Ei eqxx. split=> //. eapply mat_of_ext; [exact Hm|]. move=> a b _ _.
      rewrite /g1 trans_eq Ei. by case: eqP => [->|].
    - have -> : (i == r) = false by apply/eqP.
      eapply ret_bind; [by apply: ret_final; apply: (swap_rows_ok ab R tmp n n g i r Hm); lia|]. move=> t Ht.
      eapply ret_bind; [by apply: HmulA.1; [exact Hf|exact Hn1]|]. move=> f' Hf'. by apply: ret_ok. }
  move=> [t f'] [Ht Hf'].
  have Tr : trans i r r = i by rewrite trans_eq eqxx; case: eqP.
  eapply ret_bind.
  { apply: ret_final. apply: (@det_clear_ok _ _ E ab R 0 _ _ _ HsubA Hmul Hdiv t n n g1 r q Ht Hr); first by have [? _] := HI.2; lia.
    by rewrite /g1 Tr. }
  move=> t' Ht'. cbn beta in Ht'. have -> : (q + 1)%coq_nat = q.+1 by lia.
  apply: (IH _ _ _ _ (cleared g1 r q) _ _ Ht' Hf'); first by lia.
  apply: (det_step HI) => //; try lia. move=> a b Ha Hb. apply: Hz; lia.
Qed.

Theorem determinant_ok n (m : Mat T) g : mat_of R m n n g -> ret ab (MatModel.determinant E m) (fun x => R x (\det (mx n n g))).
Proof.
  move=> Hm. rewrite /MatModel.determinant. have [Dr [Dc _]] := mat_of_dims R m n n g Hm. rewrite Dr Dc PeanoNat.Nat.eqb_refl /= {Dr Dc}.
  case: (PeanoNat.Nat.eqb_spec n 1) => [N1|N1].
  { subst n. rewrite /= det1. by apply: (@read_of _ _ _ _ m 1 1 g 0 0 0 Hm); lia. }
  case: (PeanoNat.Nat.eqb_spec n 2) => [N2|N2].
  { subst n. by apply: det2_ok. }
  eapply ret_bind; [exact (Mat_copy_ok E ab R m n n g Hm)|]. move=> t Ht. cbn beta in Ht.
  have [Dr [Dc _]] := mat_of_dims R t n n g Ht. rewrite Dr.
  eapply ret_bind.
  { apply: (@det_rows_ok n (\det (mx n n g)) n 0 t _ 0 g 1) => //. split; first by left. split=> //. left. split=> //. split=> //. by rewrite mul1r. }
  move=> [t' f'] [g' [f [Ht' [Hf [Sf HD]]]]].
  have [Dr' [Dc' _]] := mat_of_dims R t' n n g' Ht'. rewrite Dr'.
  eapply ret_bind.
  { apply: ret_final. apply: (sret_for ab (fun i t => R t (\prod_(0 <= l < i) g' l l)) n 0); first by rewrite big_nil.
    move=> i x Hi Hx. rewrite /= big_nat_recr //=. eapply (sret_eval ab); last by move=> y Hy; apply: sret_done; exact Hy.
    eapply ret_bind; [by apply: (entry_of ab R t' n n g' i i Ht'); lia|]. move=> y Hy. by apply: HmulA.1. }
  move=> x Hx. cbn beta in Hx. rewrite HD -signed_div //. apply: Hdiv => //. exact: signed_nz.
Qed.
End Det.

Lemma determinant_bad {T} (E : ops T) (m : Mat T) r c : dims m r c -> r <> c -> MatModel.determinant E m = Throw DomainError.
Proof.
  move=> [Dr [Dc _]] N. have H : Nat.eqb (rows m) (cols m) = false by apply/PeanoNat.Nat.eqb_neq; rewrite Dr Dc.
  by rewrite /MatModel.determinant H.
Qed.
