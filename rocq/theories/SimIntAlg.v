(** rref() and inverse() of Mat<Int> and Mat<int>, when no quotient is truncated. *)
From Coq Require Import QArith.
From Verif Require Import Base IntModel IntSpec IntBasics IntMod ElemModel ElemSpec ElemProofs ElemInst VecModel MatModel MatSpec MatProofs Int32Spec Int32Proofs
  SimSpec SimProofs SimInst.
From mathcomp Require Import all_ssreflect all_algebra zify ssrZ.
From Verif Require Import MatAlg MatCof MatDet MatRrefSpec MatRref MatUnique SimAlg.
Set Implicit Arguments. Unset Strict Implicit. Unset Printing Implicit Defensive.
Import GRing.Theory.
Local Open Scope ring_scope.
Delimit Scope Z_scope with Z.
Local Notation integers g := (fun i j => inject_Z (g i j)).
Local Notation fractions g := (fun i j => ratQ (g i j)).
Local Notation rationals g := (fun i j => ratZ (g i j)).

Lemma mx_rationals n c (g : nat -> nat -> Z) : mx n c (rationals g) = map_mx (RMorphism ratZ_is_rmorphism) (mx n c g).
Proof. apply/matrixP => i j. by rewrite !mxE. Qed.
Lemma mx_integers n c (g : nat -> nat -> Z) : mx n c (fractions (integers g)) = mx n c (rationals g).
Proof. apply: mx_ext => i j _ _. exact: ratQ_int. Qed.
Lemma rationals_inj n c (M N : 'M[Z]_(n, c)) : map_mx (RMorphism ratZ_is_rmorphism) M = map_mx (RMorphism ratZ_is_rmorphism) N -> M = N.
Proof. move=> E. apply/matrixP => i j. move/matrixP: E => /(_ i j). rewrite !mxE. exact: ratZ_inj. Qed.
Lemma rationals_inverse n (g h : nat -> nat -> Z) : mx n n (rationals h) *m mx n n (rationals g) = 1%:M -> mx n n h *m mx n n g = 1%:M /\ mx n n g *m mx n n h = 1%:M.
Proof.
  rewrite !mx_rationals -map_mxM -(map_mx1 (RMorphism ratZ_is_rmorphism)) => /rationals_inj E. split=> //. exact: mulmx1C.
Qed.

Section Whole.
Context {T : Type} (E : ops T) (ab : halt -> Prop) (R : Q -> T -> Prop) (S : T -> Z -> Prop) (ok : Q -> bool).
Hypotheses (HR : ring_sim ab R (watched ok) E) (HD : div_sim ab R (watched ok) E).
(** what is held is an integer *)
Hypothesis RS : forall q x, R q x -> exists z, S x z /\ Qeq (inject_Z z) q.
Lemma whole_values d n c (h : nat -> nat -> Q) : mat_of (fun x q => R q x) d n c h -> exists k, mat_of S d n c k /\ forall i j, (i < n)%coq_nat -> (j < c)%coq_nat -> ratZ (k i j) = ratQ (h i j).
Proof.
  move=> [H1 [H2 [H3 H]]]. exists (fun i j => Qnum (Qred (h i j))).
  have G i j : (i < n)%coq_nat -> (j < c)%coq_nat -> exists x z, nth_error (data d) (i * c + j)%coq_nat = Some (Some x) /\ S x z /\ Qeq (inject_Z z) (h i j) /\ Qnum (Qred (h i j)) = z.
  { move=> Hi Hj. have [x [Ex Hx]] := H i j Hi Hj. have [z [Sz Ez]] := RS Hx. exists x, z. split=> //. split=> //. split=> //.
    rewrite -(Qred_complete _ _ Ez) /Qred /=. have := Z.ggcd_gcd z 1. have := Z.ggcd_correct_divisors z 1. case: (Z.ggcd z 1) => [u [a b]] /= [E1 E2] Eu. rewrite Z.gcd_1_r in Eu. lia. }
  split.
  - split=> //. split=> //. split=> // i j Hi Hj. have [x [z [Ex [Sx [_ ->]]]]] := G i j Hi Hj. by exists x.
  - move=> i j Hi Hj. have [x [z [_ [_ [Ez ->]]]]] := G i j Hi Hj. rewrite -ratQ_int. exact/ratQ_eq.
Qed.
Lemma rref_whole m n c (g : nat -> nat -> Z) r : mat_sim R (table n c (integers g)) m -> rref (watched ok) (table n c (integers g)) = Ok r ->
  ret ab (rref E m) (fun d => exists h, mat_of S d n c h /\ is_rref n c (rationals h) /\ row_equivalent n c (rationals g) (rationals h)).
Proof.
  move=> Hs Er. apply: ret_mono (rref_sim _ _ _ _ HR HD _ _ Hs r Er) _ => d Hd.
  have [h [Hr [Rh Eh]]] := watched_rref (table_rat n c (integers g)) Er. have [k [Hk Ek]] := mat_rat Hr.
  have [l [Hl El]] := whole_values (sim_table _ _ _ _ _ _ Hd Hk). exists l. split=> //.
  have Eh' : row_equivalent n c (rationals g) h by case: Eh => P UP EP; exists P => //; rewrite EP mx_integers.
  apply: (rref_ext _ Rh Eh') => i j Hi Hj. by rewrite El ?Ek.
Qed.
Lemma inverse_whole m n (g : nat -> nat -> Z) r : mat_sim R (table n n (integers g)) m -> inverse (watched ok) (table n n (integers g)) = Ok r ->
  ret ab (inverse E m) (fun d => exists h, mat_of S d n n h /\ mx n n h *m mx n n g = 1%:M /\ mx n n g *m mx n n h = 1%:M).
Proof.
  move=> Hs Er. apply: ret_mono (inverse_sim _ _ _ _ HR HD _ _ Hs r Er) _ => d Hd.
  have [h [Hr Eh]] := watched_inverse (table_rat n n (integers g)) Er. have [k [Hk Ek]] := mat_rat Hr.
  have [l [Hl El]] := whole_values (sim_table _ _ _ _ _ _ Hd Hk). exists l. split=> //.
  apply: rationals_inverse. rewrite -(mx_integers n n g) -Eh. congr (_ *m _). apply: mx_ext => i j Hi Hj. rewrite El ?Ek //; lia.
Qed.
End Whole.

(** *** The element types *)
Lemma integers_table (P : Z -> Prop) m n c g : mat_of R_int m n c g -> (forall i j, (i < n)%coq_nat -> (j < c)%coq_nat -> P (g i j)) ->
  mat_sim (is_Int P) (table n c (integers g)) m.
Proof.
  move=> [H1 [H2 [H3 H]]] HP. apply: table_sim. split=> //. split=> //. split=> // i j Hi Hj. have [x [Ex [Cx Vx]]] := H i j Hi Hj.
  exists x. split=> //. split=> //. split; [rewrite Vx; exact: HP|by rewrite Vx].
Qed.
Lemma int32_table m n c g : mat_of R32 m n c g -> mat_sim is_int32 (table n c (integers g)) m.
Proof.
  move=> [H1 [H2 [H3 H]]]. apply: table_sim. split=> //. split=> //. split=> // i j Hi Hj. have [x [Ex [Vx Fx]]] := H i j Hi Hj. exists x. rewrite Vx in Ex *. by [].
Qed.
Lemma is_Int_R P q x : is_Int P q x -> exists z, R_int x z /\ Qeq (inject_Z z) q.
Proof. move=> [C [_ V]]. by exists (IntSpec.val x). Qed.
Lemma is_int32_R q x : is_int32 q x -> exists z, R32 x z /\ Qeq (inject_Z z) q.
Proof. move=> [F V]. by exists x. Qed.
Lemma representable_integral : representable (is_Int (fun _ => True)) integral.
Proof. move=> r /integral_Z Er. have [x [Cx Vx]] := canonical_exists (Qnum (Qred r)). exists x. split=> //. split=> //. by rewrite Vx; apply: Qeq_sym. Qed.
Definition below18 (z : Z) : Prop := (Z.abs z < 10 ^ 18)%Z.
Lemma representable_below18 : representable (is_Int below18) (small_integral (10 ^ 18 - 1)%Z).
Proof.
  move=> r. rewrite /small_integral => /andP [/integral_Z Er /Z.leb_le L]. have [x [Cx Vx]] := canonical_exists (Qnum (Qred r)). exists x. split=> //. split; last by rewrite Vx; apply: Qeq_sym.
  rewrite /below18 Vx. lia.
Qed.
Definition integral32 (q : Q) : bool := integral q && (INT32_MIN <=? Qnum (Qred q))%Z && (Qnum (Qred q) <=? INT32_MAX)%Z.
Lemma representable_32 : representable is_int32 integral32.
Proof. move=> r /andP [/andP [/integral_Z Er /Z.leb_le L1] /Z.leb_le L2]. exists (Qnum (Qred r)). split; [by []|exact: Qeq_sym]. Qed.
Lemma Int_ring_any : ring_sim may_abort (is_Int (fun _ => True)) (watched integral) Int_ops.
Proof. apply: Int_ring; last exact: representable_integral. by []. Qed.
Lemma Int_field_any : div_sim may_abort (is_Int (fun _ => True)) (watched integral) Int_ops.
Proof. apply: Int_field; [exact: representable_integral|by left]. Qed.
Lemma Int_ring_18 : ring_sim never (is_Int below18) (watched (small_integral (10 ^ 18 - 1)%Z)) Int_ops.
Proof. apply: Int_ring; last exact: representable_below18. by move=> k /= [<-|[<-|[<-|//]]]. Qed.
Lemma Int_field_18 : div_sim never (is_Int below18) (watched (small_integral (10 ^ 18 - 1)%Z)) Int_ops.
Proof. apply: Int_field; [exact: representable_below18|right=> z; by []]. Qed.
