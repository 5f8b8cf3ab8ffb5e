(** Laws of matrix arithmetic, as equalities between results of the operations of
    Mat (proofs for PropsMatLaws). *)
From Coq Require Import QArith.
From Verif Require Import Base IntModel IntSpec ElemModel ElemSpec ElemProofs ElemInst VecModel MatModel MatSpec MatProofs.
From Verif Require PropsMat PropsMatAlg.
From mathcomp Require Import all_ssreflect all_algebra zify ssrZ.
From Verif Require Import MatAlg MatCof MatDet MatRrefSpec MatRref MatUnique.
Set Implicit Arguments. Unset Strict Implicit. Unset Printing Implicit Defensive.
Import GRing.Theory.
Local Open Scope ring_scope.
Delimit Scope Z_scope with Z.

(** the operations of E compute, without fail, those of the ring A on
    representations that are unique *)
Record exact_ring {T : Type} {A : comRingType} (E : ops T) (R : T -> A -> Prop) : Prop := {
  er_unique : forall x y a, R x a -> R y a -> x = y;
  er_zero : R (of_int E 0) 0;
  er_one : R (of_int E 1) 1;
  er_add : binary_exact never R (add E) +%R;
  er_sub : binary_exact never R (sub E) (fun a b => a - b);
  er_mul : binary_exact never R (mul E) *%R;
  er_addA : assign_exact never R R R (addA E) +%R;
  er_subA : assign_exact never R R R (subA E) (fun a b => a - b);
  er_neg : forall x a, R x a -> ret never (neg E x) (fun z => R z (- a));
  er_eq : forall x y a b, R x a -> R y b -> ret never (ElemModel.eqb E x y) (fun e => e = true <-> a = b) }.

Section Ring.
Context {T : Type} {A : comRingType} (E : ops T) (R : T -> A -> Prop) (H : exact_ring E R).

Lemma nth_error_ext B (l l' : list B) : (forall k, List.nth_error l k = List.nth_error l' k) -> l = l'.
Proof.
  elim: l l' => [|a l IH] [|b l'] // K; [by move: (K 0%N)|by move: (K 0%N)|].
  have [->] : Some a = Some b := K 0%N. congr cons. apply: IH => k. exact: (K k.+1).
Qed.

(** x holds a representation of every entry of M *)
Definition rep n m (x : Mat T) (M : 'M[A]_(n, m)) : Prop := exists g, mat_of R x n m g /\ mx n m g = M.
Lemma rep_of n m x g : mat_of R x n m g -> rep x (mx n m g).
Proof. by exists g. Qed.

Lemma rep_eq n m x y (M : 'M_(n, m)) : rep x M -> rep y M -> x = y.
Proof.
  move=> [g [[R1 [C1 [L1 D1]]] EM]] [h [[R2 [C2 [L2 D2]]] EN]].
  have G := mx_inj (etrans EM (esym EN)).
  case: x R1 C1 L1 D1 => r1 c1 d1 /= -> -> L1 D1. case: y R2 C2 L2 D2 => r2 c2 d2 /= -> -> L2 D2. f_equal.
  apply nth_error_ext => k.
  case: (ltnP k (n * m)) => K.
  - have C0 : (0 < m)%N by case: (posnP m) K => // ->; rewrite muln0.
    have Hj : (k %% m < m)%N by rewrite ltn_mod.
    have Hi : (k %/ m < n)%N by rewrite ltn_divLR.
    have [x1 [N1 X1]] := D1 _ _ (ltP Hi) (ltP Hj). have [x2 [N2 X2]] := D2 _ _ (ltP Hi) (ltP Hj).
    have K1 : Nat.add (Nat.mul (k %/ m) m) (k %% m) = k by exact (esym (divn_eq k m)).
    rewrite K1 in N1 N2. rewrite N1 N2. do 2 f_equal. apply: (er_unique H X1). by rewrite (G _ _ Hi Hj).
  - have K' : (n * m <= k)%coq_nat by apply/leP.
    have /List.nth_error_None -> : (length d1 <= k)%coq_nat by rewrite L1.
    have /List.nth_error_None -> : (length d2 <= k)%coq_nat by rewrite L2.
    by [].
Qed.

Lemma er_fun x a b : R x a -> R x b -> a = b.
Proof.
  move=> Ha Hb. have [e [E1 H1]] := ret_False _ _ (er_eq H Ha Ha). have [e' [E2 H2]] := ret_False _ _ (er_eq H Ha Hb).
  have Ee : e = e' by move: E2; rewrite E1 => -[]. apply/H2. rewrite -Ee. by apply/H1.
Qed.
Lemma rep_fun n m x (M N : 'M_(n, m)) : rep x M -> rep x N -> M = N.
Proof.
  move=> [g [[_ [_ [_ D1]]] <-]] [h [[_ [_ [_ D2]]] <-]]. apply: mx_ext => i j Hi Hj.
  have [a [N1 Ha]] := D1 i j (ltP Hi) (ltP Hj). have [b [N2 Hb]] := D2 i j (ltP Hi) (ltP Hj).
  move: N1. rewrite N2 => -[Eb]. rewrite Eb in Hb. exact: er_fun Ha Hb.
Qed.

Lemma rep_ok n m f (M : 'M_(n, m)) : ret never f (fun d => rep d M) -> exists d, f = Ok d /\ rep d M.
Proof. exact: ret_False. Qed.
Lemma rep_mul n m p x y (M : 'M_(n, m)) (N : 'M_(m, p)) : rep x M -> rep y N -> exists d, M_product E x y = Ok d /\ rep d (M *m N).
Proof.
  move=> [g [Hx <-]] [h [Hy <-]].
  have [_ [K _]] := PropsMat.C48_product _ _ E never R 0 +%R *%R (er_zero H) (er_addA H) (er_mul H) x y n m m p g h Hx Hy.
  have [/ret_False [r [Er Hr]] _] := K erefl. exists r. split=> //. exists (fun i j => \sum_(0 <= k < m) g i k * h k j). split; last by rewrite mx_mul.
  eapply mat_of_ext; [exact Hr|]. move=> i j _ _. cbn beta. exact: PropsMatAlg.sum_to_big.
Qed.
Lemma rep_add n m x y (M N : 'M_(n, m)) : rep x M -> rep y N -> exists d, M_add E x y = Ok d /\ rep d (M + N).
Proof.
  move=> [g [Hx <-]] [h [Hy <-]].
  have [_ K] := PropsMat.C48_add _ _ E never R R +%R (er_add H) (er_addA H) x y n m n m g h Hx Hy.
  have [/ret_False [r [Er Hr]] _] := proj1 K erefl. exists r. split=> //. eexists; split; first exact Hr. by apply/matrixP=> i j; rewrite !mxE.
Qed.
Lemma rep_sub n m x y (M N : 'M_(n, m)) : rep x M -> rep y N -> exists d, M_sub E x y = Ok d /\ rep d (M - N).
Proof.
  move=> [g [Hx <-]] [h [Hy <-]].
  have [_ K] := PropsMat.C48_sub _ _ E never R R _ (er_sub H) (er_subA H) x y n m n m g h Hx Hy.
  have [/ret_False [r [Er Hr]] _] := proj1 K erefl. exists r. split=> //. eexists; split; first exact Hr. by apply/matrixP=> i j; rewrite !mxE.
Qed.
Lemma rep_neg n m x (M : 'M_(n, m)) : rep x M -> exists d, M_neg E x = Ok d /\ rep d (- M).
Proof.
  move=> [g [Hx <-]]. have /ret_False [r [Er Hr]] := PropsMat.C48_neg _ _ E never R _ (er_neg H) x n m g Hx.
  exists r. split=> //. eexists; split; first exact Hr. by apply/matrixP=> i j; rewrite !mxE.
Qed.
Lemma rep_scale n m x (M : 'M_(n, m)) s a : rep x M -> R s a -> exists d, M_scale E s x = Ok d /\ rep d (a *: M).
Proof.
  move=> [g [Hx <-]] Hs. have /ret_False [r [Er Hr]] := M_scale_ok E never R _ s x n m g a (er_mul H) Hs Hx.
  exists r. split=> //. eexists; split; first exact Hr. by apply/matrixP=> i j; rewrite !mxE.
Qed.
Lemma rep_tr n m x (M : 'M_(n, m)) : rep x M -> exists d, transpose E x = Ok d /\ rep d M^T.
Proof.
  move=> [g [Hx <-]]. have /ret_False [r [Er Hr]] := PropsMat.C48_transpose _ _ E never R x n m g Hx.
  exists r. split=> //. eexists; split; first exact Hr. by apply/matrixP=> i j; rewrite !mxE.
Qed.
Lemma rep_one n : exists d, identityMatrix E n = Ok d /\ rep d (1%:M : 'M_n).
Proof.
  have /ret_False [r [Er Hr]] := @identityMatrix_ok _ _ E never R n _ _ (er_zero H) (er_one H).
  exists r. split=> //. eexists; split; first exact Hr. apply/matrixP=> i j; rewrite !mxE -[i == j]/(nat_of_ord i == j).
  by case: (Nat.eqb_spec i j) => [->|/eqP/negbTE ->]; rewrite ?eqxx.
Qed.
Lemma rep_trace n x (M : 'M_n) : rep x M -> exists t, MatModel.trace E x = Ok t /\ R t (\tr M).
Proof.
  move=> [g [Hx <-]]. have [_ K] := PropsMat.C48_trace _ _ E never R 0 +%R (er_zero H) (er_addA H) x n n g Hx.
  have [t [-> Ht]] := ret_False _ _ (K erefl). exists t. split=> //. move: Ht. rewrite PropsMatAlg.sum_to_big /mxtrace big_mkord.
  have -> // : \sum_(i < n) g i i = \sum_i mx n n g i i by apply: eq_bigr => i _; rewrite mxE.
Qed.
Lemma rep_cof n x (M : 'M_n.+1) : rep x M -> exists t, row_cofactor_expansion E x = Ok t /\ col_cofactor_expansion E x = Ok t /\ R t (\det M).
Proof.
  move=> [g [Hx <-]].
  have [/ret_False [t [E1 H1]] /ret_False [u [E2 H2]]] := @PropsMatAlg.C49_value _ _ E never R (er_zero H) (er_addA H) (er_subA H) (er_sub H) (er_mul H) (er_eq H) n x g Hx.
  exists t. split=> //. split=> //. by rewrite E2 (er_unique H H1 H2).
Qed.
End Ring.

(** and those of a field *)
Record exact_field {T : Type} {K : fieldType} (E : ops T) (R : T -> K -> Prop) : Prop := {
  ef_ring :> exact_ring E R;
  ef_minus : R (of_int E (-1)) (-1);
  ef_mulA : assign_exact never R R R (mulA E) *%R;
  ef_div : forall x y a b, R x a -> R y b -> b <> 0 -> ret never (ElemModel.div E x y) (fun r => R r (a / b));
  ef_divA : forall x y a b, R x a -> R y b -> b <> 0 -> ret never (divA E x (Some y)) (fun r => R r (a / b)) }.

(** matrices with the same row space *)
Lemma rref_unique_rows (F : fieldType) n c (g h : nat -> nat -> F) : is_rref n c g -> is_rref n c h -> (mx n c g == mx n c h)%MS ->
  mx n c g = mx n c h.
Proof.
  have D (a b : nat -> nat -> F) : (mx n c b <= mx n c a)%MS -> exists P, times n c P a b.
  { move=> /submxP [P HP]. case: n P HP => [|k] P HP; first by exists (fun _ _ => 0).
    exists (fun i l => P (inord i) (inord l)) => i j Hi Hj. move/matrixP: HP => /(_ (inord i) (Ordinal Hj)). rewrite !mxE /= inordK // => ->.
    rewrite big_mkord. apply: eq_bigr => l _. by rewrite !mxE inord_val. }
  move=> [rk [piv Fg]] [rk' [piv' Fh]] /andP [S1 S2]. have [P HP] := D g h S2. have [Q HQ] := D h g S1.
  have [t [_ [_ [_ [_ [_ H]]]]]] := unique_columns HP HQ Fg Fh (leqnn c). apply: mx_ext => i j Hi Hj. exact: H.
Qed.
(** the pivots of a reduced row echelon form are as many as its rank *)
Lemma rref_rank (F : fieldType) n c (g : nat -> nat -> F) rk piv : frame n c g rk piv -> \rank (mx n c g) = rk.
Proof.
  move=> Fg. have [L [_ [_ Z]]] := Fg. apply/eqP. rewrite eqn_leq. apply/andP. split.
  - have -> : mx n c g = (pid_mx rk : 'M_n) *m mx n c g.
    { apply/matrixP => i j. rewrite !mxE (bigD1 i) //= !mxE eqxx /= big1 ?addr0.
      - case: ltnP => I; rewrite ?mul1r // mul0r. apply: Z => //. by rewrite I /=.
      - move=> k. rewrite !mxE eq_sym -val_eqE /= => /negbTE ->. by rewrite mul0r. }
    apply: leq_trans (mxrankM_maxl _ _) _. by rewrite rank_pid_mx.
  - have C : mx n c g *m mx c rk (fun j k => (j == piv k)%:R) = pid_mx rk.
    { apply/matrixP => i k. rewrite !mxE. have [_ [P _]] := Fg. have [Pk _] := P k (ltn_ord k).
      rewrite (bigD1 (Ordinal Pk)) //= !mxE /= eqxx mulr1 big1 ?addr0.
      - rewrite (frame_col Fg (ltn_ord k) (ltn_ord i)). case: (eqVneq (i : nat) k) => [->|] //=. by rewrite ltn_ord.
      - move=> j. rewrite -val_eqE /= !mxE => /negbTE ->. by rewrite mulr0. }
    apply: leq_trans (mxrankM_maxl (mx n c g) (mx c rk (fun j k => (j == piv k)%:R))). by rewrite C rank_pid_mx.
Qed.

Section Field.
Context {T : Type} {K : fieldType} (E : ops T) (R : T -> K -> Prop) (F : exact_field E R).
Local Notation H := (ef_ring F).

Lemma rep_det n x (M : 'M_n) : rep R x M -> exists t, MatModel.determinant E x = Ok t /\ R t (\det M).
Proof.
  move=> [g [Hx <-]].
  exact: ret_False (PropsMatAlg.C50_value (er_zero H) (er_one H) (ef_minus F) (er_subA H) (ef_mulA F) (er_sub H) (er_mul H) (ef_div F) (er_eq H) Hx).
Qed.
Lemma rep_inv n x (M : 'M_n) : rep R x M -> M \in unitmx -> exists d, inverse E x = Ok d /\ rep R d (invmx M).
Proof.
  move=> [g [Hx <-]] U.
  have [Q _] := PropsMatAlg.C52_value (er_zero H) (er_one H) (er_subA H) (er_mul H) (ef_divA F) (er_eq H) Hx.
  have [d [Ed [h Hh]]] := ret_False _ _ (Q U). exists d. split=> //. by exists h.
Qed.
Lemma rep_sing n x (M : 'M_n) : rep R x M -> M \notin unitmx -> inverse E x = Throw DomainError.
Proof.
  move=> [g [Hx <-]] U.
  have [_ Q] := PropsMatAlg.C52_value (er_zero H) (er_one H) (er_subA H) (er_mul H) (ef_divA F) (er_eq H) Hx.
  by have [//|/ret_False [? [_ []]]] := Q U.
Qed.
Lemma rep_rref n c x (M : 'M_(n, c)) : rep R x M -> exists d g, rref E x = Ok d /\ mat_of R d n c g /\ is_rref n c g /\ (mx n c g == M)%MS.
Proof.
  move=> [g [Hx <-]].
  have [d [Ed [h [Hd [Rh Eh]]]]] := ret_False _ _ (PropsMatAlg.C51_value (er_zero H) (er_subA H) (er_mul H) (ef_divA F) (er_eq H) Hx).
  exists d, h. split=> //. split=> //. split=> //. apply/eqmxP. exact: req_rows Eh.
Qed.
Lemma rref_rows n c x y (M N : 'M_(n, c)) : rep R x M -> rep R y N -> (rref E x = rref E y <-> (M == N)%MS).
Proof.
  move=> Hx Hy. have [d [g [-> [Hd [Rg Sg]]]]] := rep_rref Hx. have [e [h [-> [He [Rh Sh]]]]] := rep_rref Hy. split.
  - case=> Ede. rewrite -Ede {e Ede} in He. have G : mx n c g = mx n c h by exact: (rep_fun H (rep_of Hd) (rep_of He)).
    move/eqmxP: Sg => Sg. move/eqmxP: Sh => Sh. apply/eqmxP. apply: eqmx_trans (eqmx_sym Sg) _. by rewrite G.
  - move=> S. congr Ok. apply: (rep_eq H (rep_of Hd)). rewrite (@rref_unique_rows _ n c g h) //; first exact: rep_of He.
    move/eqmxP: Sg => Sg. move/eqmxP: Sh => Sh. move/eqmxP: S => S. apply/eqmxP. apply: eqmx_trans Sg _. apply: eqmx_trans S _. exact: eqmx_sym.
Qed.
(** a matrix in reduced row echelon form is left as it is *)
Lemma rref_fixed n c x g : mat_of R x n c g -> is_rref n c g -> rref E x = Ok x.
Proof.
  move=> Hx Rg. have [d [h [-> [Hd [Rh Sh]]]]] := rep_rref (rep_of Hx). congr Ok. apply: (rep_eq H (rep_of Hd)).
  rewrite (@rref_unique_rows _ n c h g) //. exact: rep_of Hx.
Qed.
End Field.
