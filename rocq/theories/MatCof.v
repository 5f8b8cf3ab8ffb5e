(** Cofactor expansion computes the determinant (src/Mat.hpp:300-342). *)
From Verif Require Import Base IntModel ElemModel ElemSpec ElemProofs VecModel MatModel MatSpec MatProofs.
From mathcomp Require Import all_ssreflect fingroup perm all_algebra zify.
From Verif Require Import MatAlg.
Set Implicit Arguments. Unset Strict Implicit. Unset Printing Implicit Defensive.
Import GRing.Theory.
Local Open Scope ring_scope.

Lemma skip_bump i k : skip i k = bump i k.
Proof. rewrite /skip /bump. case: (PeanoNat.Nat.leb_spec i k) => H; lia. Qed.
Lemma mod2_odd k : Nat.eqb (Nat.modulo k 2) 1 = odd k.
Proof.
  apply/idP/idP.
  - move=> /PeanoNat.Nat.eqb_eq H. have := PeanoNat.Nat.div_mod k 2. lia.
  - move=> H. apply/PeanoNat.Nat.eqb_eq. have := PeanoNat.Nat.div_mod k 2. have := PeanoNat.Nat.mod_upper_bound k 2. lia.
Qed.

Section Cof.
Context {T : Type} {A : comRingType} (E : ops T) (ab : halt -> Prop) (R : T -> A -> Prop).
Hypotheses (H0 : R (of_int E 0) 0)
  (HaddA : assign_exact ab R R R (addA E) +%R) (HsubA : assign_exact ab R R R (subA E) (fun a b => a - b))
  (Hsub : binary_exact ab R (sub E) (fun a b => a - b)) (Hmul : binary_exact ab R (mul E) *%R)
  (Heq : forall x y a b, R x a -> R y b -> ret ab (ElemModel.eqb E x y) (fun e => e = true <-> a = b)).

Lemma read_of (m : Mat T) (r c : nat) (g : nat -> nat -> A) i j k : mat_of R m r c g -> lt i r -> lt j c -> k = (i * c + j)%N ->
  ret ab (read (data m) k) (fun x => R x (g i j)).
Proof.
  move=> Hm Hi Hj ->. have := entry_of ab R m r c g i j Hm Hi Hj. rewrite /entry /offset.
  by have [_ [-> _]] := mat_of_dims R m r c g Hm.
Qed.
Lemma det2_ok m g : mat_of R m 2 2 g -> ret ab (MatModel.det2 E m) (fun x => R x (\det (mx 2 2 g))).
Proof.
  move=> Hm. rewrite /MatModel.det2 det2.
  eapply ret_bind; [by apply: (@read_of m 2 2 g 0 0 0 Hm); lia|]. move=> a Ha.
  eapply ret_bind; [by apply: (@read_of m 2 2 g 1 1 3 Hm); lia|]. move=> d Hd.
  eapply ret_bind; [by apply: Hmul; [exact Ha|exact Hd]|]. move=> p Hp.
  eapply ret_bind; [by apply: (@read_of m 2 2 g 0 1 1 Hm); lia|]. move=> b Hb.
  eapply ret_bind; [by apply: (@read_of m 2 2 g 1 0 2 Hm); lia|]. move=> c Hc.
  eapply ret_bind; [by apply: Hmul; [exact Hb|exact Hc]|]. move=> q Hq. by apply: Hsub.
Qed.

(** one level: e k and d k are the coefficients and the determinants of the minors *)
Lemma expansion_ok rec (m : Mat T) n g k ent mnr (e d : nat -> A) : mat_of R m n n g ->
  (n = 0 -> k = 0)%N -> (n <> 1%N -> n <> 2%N -> n <> 0%N -> \det (mx n n g) = \sum_(0 <= l < k) (-1) ^+ l * (e l * d l)) ->
  (forall l, (l < k)%coq_nat -> ret ab (ent l) (fun x => R x (e l))) ->
  (forall l, (l < k)%coq_nat -> n <> 1%N -> n <> 2%N -> ret ab (s <- mnr l ;; rec s) (fun x => R x (d l))) ->
  ret ab (expansion E rec m k ent mnr) (fun x => R x (if n == 0%N then 0 else \det (mx n n g))).
Proof.
  move=> Hm K D He Hd. rewrite /expansion. have [Dr [Dc _]] := mat_of_dims R m n n g Hm. rewrite Dr Dc PeanoNat.Nat.eqb_refl /= {Dr Dc}.
  case: (PeanoNat.Nat.eqb_spec n 1) => [N1|N1].
  { subst n. rewrite /= det1. by apply: (@read_of m 1 1 g 0 0 0 Hm); lia. }
  case: (PeanoNat.Nat.eqb_spec n 2) => [N2|N2].
  { subst n. by apply: det2_ok. }
  have -> : (if n == 0%N then 0 else \det (mx n n g)) = \sum_(0 <= l < k) (-1) ^+ l * (e l * d l).
  { case: eqP => [Z|Z]; last by apply: D. by rewrite K // big_nil. }
  apply: ret_final. apply: (sret_for ab (fun j t => R t (\sum_(0 <= l < j) (-1) ^+ l * (e l * d l))) k 0).
  { by rewrite big_nil. }
  move=> l t Hl Ht. have Hl' : (l < k)%coq_nat by lia.
  eapply sret_eval; [exact (He l Hl')|]. move=> x Hx. cbn beta in Hx.
  eapply sret_eval; [exact (Heq Hx H0)|]. move=> z Hz. cbn beta in Hz.
  rewrite /= big_nat_recr //=. case: z Hz => Hz.
  { have [Hz1 _] := Hz. apply: sret_done. by rewrite (Hz1 erefl) mul0r mulr0 addr0. }
  eapply (sret_eval ab) with (P := fun t' => R t' (\sum_(0 <= i < l) (-1) ^+ i * (e i * d i) + (-1) ^+ l * (e l * d l))); last first.
  { move=> t' Ht'. by apply: sret_done. }
  have := Hd l Hl' N1 N2. case: (mnr l) => //=.
  - move=> s Hs. eapply ret_bind; [exact Hs|]. move=> y Hy. cbn beta in Hy. eapply ret_bind; [exact (Hmul Hx Hy)|]. move=> p Hp. cbn beta in Hp.
    rewrite mod2_odd -signr_odd. case: (odd l).
    + rewrite expr1 mulN1r. by apply: HsubA.1.
    + rewrite expr0 mul1r. by apply: HaddA.1.
  - move=> ex [[? [? _]]|[[] [_ ?]]] //.
  - by move=> [[? [? _]]|[[] [H _]]] //; right; exists HAbort.
  - by move=> [[? [? _]]|[[] [H _]]] //; right; exists HUB.
  - by move=> [[? [? _]]|[[] [_ ?]]] //.
Qed.

Lemma minor_mx n (g : nat -> nat -> A) p q :
  mx n n (fun a b => g (skip p a) (skip q b)) = mx n n (minor p q g).
Proof. by apply/matrixP => i j; rewrite !mxE !skip_bump. Qed.
Lemma row_expansion_ok fuel : forall n (m : Mat T) g, mat_of R m n n g -> (n < fuel)%coq_nat ->
  ret ab (row_expansion E fuel m) (fun x => R x (if n == 0%N then 0 else \det (mx n n g))).
Proof.
  elim: fuel => [|fuel IH] n m g Hm Hf; first by lia. cbn [row_expansion].
  have [Dr [Dc _]] := mat_of_dims R m n n g Hm. rewrite Dc.
  apply: (@expansion_ok _ m n g n _ _ (g 0%N) (fun l => \det (mx n.-1 n.-1 (minor 0 l g)))) => //.
  - move=> _ _ N0. by case: n N0 {Hm Hf Dr Dc} => // n _; rewrite det_row.
  - move=> l Hl. apply: (entry_of ab R m n n g) => //. lia.
  - move=> l Hl N1 N2. eapply ret_bind; [by apply: (first_minor_ok E ab R m n n g 0 l Hm); lia|].
    move=> s Hs. cbn beta in Hs. have Hs' : (n - 1 < fuel)%coq_nat by lia.
    have := IH _ _ _ Hs Hs'. rewrite -minor_mx.
    have -> : (n - 1 = n.-1)%coq_nat by lia. by have -> : (n.-1 == 0)%N = false by lia.
Qed.
Lemma col_expansion_ok fuel : forall n (m : Mat T) g, mat_of R m n n g -> (n < fuel)%coq_nat ->
  ret ab (col_expansion E fuel m) (fun x => R x (if n == 0%N then 0 else \det (mx n n g))).
Proof.
  elim: fuel => [|fuel IH] n m g Hm Hf; first by lia. cbn [col_expansion].
  have [Dr [Dc _]] := mat_of_dims R m n n g Hm. rewrite Dr.
  apply: (@expansion_ok _ m n g n _ _ (fun l => g l 0%N) (fun l => \det (mx n.-1 n.-1 (minor l 0 g)))) => //.
  - move=> _ _ N0. by case: n N0 {Hm Hf Dr Dc} => // n _; rewrite det_col.
  - move=> l Hl. apply: (entry_of ab R m n n g) => //. lia.
  - move=> l Hl N1 N2. eapply ret_bind; [by apply: (first_minor_ok E ab R m n n g l 0 Hm); lia|].
    move=> s Hs. cbn beta in Hs. have Hs' : (n - 1 < fuel)%coq_nat by lia.
    have := IH _ _ _ Hs Hs'. rewrite -minor_mx.
    have -> : (n - 1 = n.-1)%coq_nat by lia. by have -> : (n.-1 == 0)%N = false by lia.
Qed.

Theorem row_cofactor_ok n (m : Mat T) g : mat_of R m n n g ->
  ret ab (row_cofactor_expansion E m) (fun x => R x (if n == 0%N then 0 else \det (mx n n g))).
Proof. move=> Hm. rewrite /row_cofactor_expansion. apply: row_expansion_ok => //. have [-> _] := mat_of_dims R m n n g Hm. lia. Qed.
Theorem col_cofactor_ok n (m : Mat T) g : mat_of R m n n g ->
  ret ab (col_cofactor_expansion E m) (fun x => R x (if n == 0%N then 0 else \det (mx n n g))).
Proof. move=> Hm. rewrite /col_cofactor_expansion. apply: col_expansion_ok => //. have [-> _] := mat_of_dims R m n n g Hm. lia. Qed.
End Cof.

(** not square *)
Lemma cofactor_bad {T} (E : ops T) (m : Mat T) r c : dims m r c -> r <> c ->
  row_cofactor_expansion E m = Throw DomainError /\ col_cofactor_expansion E m = Throw DomainError.
Proof.
  move=> [Dr [Dc _]] N. have H : Nat.eqb (rows m) (cols m) = false by apply/PeanoNat.Nat.eqb_neq; rewrite Dr Dc.
  by rewrite /row_cofactor_expansion /col_cofactor_expansion /= /expansion H.
Qed.
