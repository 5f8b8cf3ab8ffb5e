(** Watched rational arithmetic computes in the field of rationals. *)
From Coq Require Import QArith.
From Verif Require Import Base IntModel IntSpec ElemModel ElemSpec ElemProofs VecModel MatModel MatSpec MatProofs SimSpec SimInst.
From mathcomp Require Import all_ssreflect all_algebra zify ssrZ.
From Verif Require Import MatAlg MatCof MatDet MatRrefSpec MatRref MatUnique.
Set Implicit Arguments. Unset Strict Implicit. Unset Printing Implicit Defensive.
Import GRing.Theory.
Local Open Scope ring_scope.
Delimit Scope Z_scope with Z.

(** a fraction as an element of the field of rational numbers *)
Definition ratZ (k : Z) : rat := (int_of_Z k)%:~R.
Definition ratQ (q : Q) : rat := ratZ (Qnum q) / ratZ (Zpos (Qden q)).
Definition is_rat (q : Q) (a : rat) : Prop := ratQ q = a.

Lemma ratZ0 k : (ratZ k == 0) = (k == Z0).
Proof. rewrite /ratZ intr_eq0 -(can_eq int_of_ZK). by []. Qed.
Lemma ratZ_pos p : ratZ (Zpos p) != 0.
Proof. by rewrite ratZ0. Qed.
Lemma ratZ_mul a b : ratZ (a * b)%Z = ratZ a * ratZ b.
Proof. by rewrite /ratZ -[Z.mul a b]/(a * b : Z) rmorphM /= intrM. Qed.
Lemma ratZ_add a b : ratZ (a + b)%Z = ratZ a + ratZ b.
Proof. by rewrite /ratZ -[Z.add a b]/(a + b : Z) rmorphD /= intrD. Qed.
Lemma ratZ_opp a : ratZ (- a)%Z = - ratZ a.
Proof. by rewrite /ratZ -[Z.opp a]/(- a : Z) rmorphN /= mulrNz. Qed.
Lemma ratZ_inj a b : ratZ a = ratZ b -> a = b.
Proof. move=> /intr_inj H. by rewrite -(int_of_ZK a) H int_of_ZK. Qed.
Lemma ratQ_eq p q : ratQ p = ratQ q <-> Qeq p q.
Proof.
  have P := ratZ_pos (Qden p). have Q := ratZ_pos (Qden q). rewrite /Qeq. split.
  - move=> /eqP. rewrite /ratQ eqr_div // => /eqP H. apply: ratZ_inj. by rewrite !ratZ_mul.
  - move=> H. apply/eqP. rewrite /ratQ eqr_div // -!ratZ_mul. by apply/eqP; congr ratZ.
Qed.
Lemma ratQ_int k : ratQ (inject_Z k) = ratZ k.
Proof. by rewrite /ratQ /= divr1. Qed.
Lemma ratQ_add p q : ratQ (Qplus p q) = ratQ p + ratQ q.
Proof. by rewrite /ratQ /Qplus /= ratZ_add !ratZ_mul Pos2Z.inj_mul ratZ_mul addf_div // ratZ_pos. Qed.
Lemma ratQ_opp p : ratQ (Qopp p) = - ratQ p.
Proof. by rewrite /ratQ /Qopp /= ratZ_opp mulNr. Qed.
Lemma ratQ_sub p q : ratQ (Qminus p q) = ratQ p - ratQ q.
Proof. by rewrite /Qminus ratQ_add ratQ_opp. Qed.
Lemma ratQ_mul p q : ratQ (Qmult p q) = ratQ p * ratQ q.
Proof. by rewrite /ratQ /Qmult /= Pos2Z.inj_mul !ratZ_mul mulf_div. Qed.
Lemma ratQ_eq0 p : ratQ p = 0 <-> Qeq p 0.
Proof. rewrite -ratQ_eq. by rewrite (ratQ_int Z0). Qed.
Lemma ratQ_div p q : ~ Qeq q 0 -> ratQ (Qdiv p q) = ratQ p / ratQ q.
Proof.
  move=> N. have M : ratQ q != 0 by apply/eqP => /ratQ_eq0. apply: (mulIf M). rewrite divfK // -ratQ_mul.
  apply/ratQ_eq. by field.
Qed.

Lemma table_rat r c g : mat_of is_rat (table r c g) r c (fun i j => ratQ (g i j)).
Proof.
  have [H1 [H2 [H3 H]]] := table_of r c g. split=> //. split=> //. split=> // i j Hi Hj. have [x [Ex <-]] := H i j Hi Hj. by exists x.
Qed.
Lemma mat_rat m r c h : mat_of is_rat m r c h -> exists g, mat_of eq m r c g /\ forall i j, (i < r)%coq_nat -> (j < c)%coq_nat -> ratQ (g i j) = h i j.
Proof.
  move=> [H1 [H2 [H3 H]]]. exists (fun i j => match nth_error (data m) (i * c + j)%coq_nat with Some (Some x) => x | _ => inject_Z 0 end). split.
  - split=> //. split=> //. split=> // i j Hi Hj. have [x [Ex Hx]] := H i j Hi Hj. exists x. by rewrite Ex.
  - move=> i j Hi Hj. have [x [Ex Hx]] := H i j Hi Hj. by rewrite Ex.
Qed.

(** determinants of integers, as integers and as rationals *)
Lemma ratZ_is_rmorphism : rmorphism (ratZ : Z -> rat).
Proof.
  split; first by move=> a b; rewrite -[a - b]/(a + - b)%Z ratZ_add ratZ_opp.
  split; first exact: ratZ_mul. by [].
Qed.
Lemma det_integers n (g : nat -> nat -> Z) : \det (mx n n (fun i j => ratQ (inject_Z (g i j)))) = ratZ (\det (mx n n g)).
Proof.
  have -> : mx n n (fun i j => ratQ (inject_Z (g i j))) = map_mx (RMorphism ratZ_is_rmorphism) (mx n n g).
  - apply/matrixP => i j. by rewrite !mxE ratQ_int.
  - by rewrite det_map_mx.
Qed.
Lemma det_upper_rat n (g : nat -> nat -> Q) : upper (fun q => Qeq q (inject_Z 0)) n g ->
  ratQ (qproduct n (fun i => g i i)) = \det (mx n n (fun i j => ratQ (g i j))).
Proof.
  move=> [Hu _]. rewrite det_upper; last by move=> i j Hij Hi; apply/ratQ_eq0; apply: Hu; lia.
  elim: n {Hu} => [|n IH]; first by rewrite big_geq.
  rewrite big_nat_recr //= -IH -ratQ_mul. by [].
Qed.
Lemma det_upper_Z n (g : nat -> nat -> Z) : upper (fun z => z = Z0) n g -> zproduct n (fun i => g i i) = \det (mx n n g).
Proof.
  move=> [Hu _]. rewrite det_upper; last by move=> i j Hij Hi; apply: Hu; lia.
  elim: n {Hu} => [|n IH]; first by rewrite big_geq.
  rewrite big_nat_recr //= -IH. by [].
Qed.
Lemma rref_ext n c (f : nat -> nat -> rat) (g h : nat -> nat -> rat) : (forall i j, (i < n)%coq_nat -> (j < c)%coq_nat -> h i j = g i j) ->
  is_rref n c g -> row_equivalent n c f g -> is_rref n c h /\ row_equivalent n c f h.
Proof.
  move=> X [rk [piv [R0 [R1 [R2 R3]]]]] [P UP EP]. split.
  - exists rk, piv. split=> //. split; last split=> //.
    + move=> k Hk. have [A1 [A2 [A3 A4]]] := R1 k Hk. split=> //. split; first by rewrite X //; lia. split.
      * move=> i Hi Ni. rewrite X; [exact: A3|lia|lia].
      * move=> j Hj. rewrite X; [exact: A4|lia|lia].
    + move=> i j Hi Hj. rewrite X; [exact: R3|lia|lia].
  - exists P => //. rewrite -EP. apply: mx_ext => i j Hi Hj. apply: X; lia.
Qed.

Section Watched.
Variable ok : Q -> bool.
Local Notation W := (watched ok).
Lemma watch_rat q a : ratQ q = a -> ret may_overflow (watch ok q) (fun r => is_rat r a).
Proof.
  move=> <-. rewrite /watch. case: (ok _); last by (right; exists HUB).
  left. exists (Qred q). split=> //. apply/ratQ_eq. exact: Qred_correct.
Qed.
Lemma watched_const k : is_rat (of_int W k) (ratZ k).
Proof. exact: ratQ_int. Qed.
Lemma watched_add : binary_exact may_overflow is_rat (ElemModel.add W) +%R.
Proof. move=> x y a b <- <-. apply: watch_rat. exact: ratQ_add. Qed.
Lemma watched_sub : binary_exact may_overflow is_rat (ElemModel.sub W) (fun a b => a - b).
Proof. move=> x y a b <- <-. apply: watch_rat. exact: ratQ_sub. Qed.
Lemma watched_mul : binary_exact may_overflow is_rat (ElemModel.mul W) *%R.
Proof. move=> x y a b <- <-. apply: watch_rat. exact: ratQ_mul. Qed.
Lemma watched_addA : assign_exact may_overflow is_rat is_rat is_rat (addA W) +%R.
Proof. split=> [x y a b <- <-|x a <- _]; apply: watch_rat; exact: ratQ_add. Qed.
Lemma watched_subA : assign_exact may_overflow is_rat is_rat is_rat (subA W) (fun a b => a - b).
Proof. split=> [x y a b <- <-|x a <- _]; apply: watch_rat; exact: ratQ_sub. Qed.
Lemma watched_mulA : assign_exact may_overflow is_rat is_rat is_rat (mulA W) *%R.
Proof. split=> [x y a b <- <-|x a <- _]; apply: watch_rat; exact: ratQ_mul. Qed.
Lemma watched_quot x y a b : is_rat x a -> is_rat y b -> b <> 0 -> ret may_overflow (watched_div ok x y) (fun r => is_rat r (a / b)).
Proof.
  move=> <- <- N. rewrite /watched_div. have M : ~ Qeq y 0 by move=> /ratQ_eq0. case E: (Qeq_bool y 0); first by move: (Qeq_bool_eq _ _ E).
  apply: watch_rat. exact: ratQ_div.
Qed.
Lemma watched_eq x y a b : is_rat x a -> is_rat y b -> ret may_overflow (ElemModel.eqb W x y) (fun e => e = true <-> a = b).
Proof. move=> <- <-. left. exists (Qeq_bool x y). split=> //. by rewrite ratQ_eq Qeq_bool_iff. Qed.

Lemma ret_Ok {A} ab (m : res A) Q a : ret ab m Q -> m = Ok a -> Q a.
Proof. by move=> [[b [-> H]] [<-] //|[[] [_ ->]]]. Qed.
Lemma watched_determinant n m g r : mat_of is_rat m n n g -> MatModel.determinant W m = Ok r -> ratQ r = \det (mx n n g).
Proof.
  move=> Hm. exact: (ret_Ok (@determinant_ok _ _ W may_overflow is_rat (watched_const 0) (watched_const 1) (watched_const (-1))
    watched_subA watched_mulA watched_sub watched_mul watched_quot watched_eq n m g Hm)).
Qed.
Lemma watched_expansion n m g : mat_of is_rat m n.+1 n.+1 g ->
  (forall r, row_cofactor_expansion W m = Ok r -> ratQ r = \det (mx n.+1 n.+1 g)) /\
  (forall r, col_cofactor_expansion W m = Ok r -> ratQ r = \det (mx n.+1 n.+1 g)).
Proof.
  move=> Hm. split=> r.
  - exact: (ret_Ok (row_cofactor_ok (watched_const 0) watched_addA watched_subA watched_sub watched_mul watched_eq Hm)).
  - exact: (ret_Ok (col_cofactor_ok (watched_const 0) watched_addA watched_subA watched_sub watched_mul watched_eq Hm)).
Qed.
Lemma watched_divA x y a b : is_rat x a -> is_rat y b -> b <> 0 -> ret may_overflow (divA W x (Some y)) (fun r => is_rat r (a / b)).
Proof. exact: watched_quot. Qed.
Lemma watched_inverse n m g r : mat_of is_rat m n n g -> inverse W m = Ok r ->
  exists h, mat_of is_rat r n n h /\ mx n n h *m mx n n g = 1%:M.
Proof.
  move=> Hm E. have [U|U] := boolP (mx n n g \in unitmx).
  - have H := @inverse_ok _ _ W may_overflow is_rat (watched_const 0) (watched_const 1) watched_subA watched_mul watched_divA watched_eq n m g Hm U.
    have [h [Hh Eh]] := ret_Ok H E. exists h. split=> //. by rewrite Eh mulVmx.
  - have [|H] := @inverse_singular _ _ W may_overflow is_rat (watched_const 0) (watched_const 1) watched_subA watched_mul watched_divA watched_eq n m g Hm U.
    + by rewrite E.
    + by have := ret_Ok H E.
Qed.
Lemma watched_rref n c m g r : mat_of is_rat m n c g -> rref W m = Ok r ->
  exists h, mat_of is_rat r n c h /\ is_rref n c h /\ row_equivalent n c g h.
Proof.
  move=> Hm. exact: (ret_Ok (@rref_ok _ _ W may_overflow is_rat (watched_const 0) watched_subA watched_mul watched_divA watched_eq n c m g Hm)).
Qed.
End Watched.
