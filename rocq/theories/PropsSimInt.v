(** Property theorems about rref() and inverse() of matrices of integers: C89. *)
From Coq Require Import QArith.
From Verif Require Import Base IntModel IntSpec IntMod FracModel ElemModel ElemSpec ElemProofs ElemInst VecModel MatModel MatSpec MatProofs
  Int32Spec Int32Proofs SimSpec SimProofs SimInst UnitTri.
From Verif Require PropsMat PropsSim.
From mathcomp Require Import all_ssreflect all_algebra zify ssrZ.
From Verif Require Import MatAlg MatCof MatRrefSpec SimAlg SimIntAlg UnitProofs.
Set Implicit Arguments. Unset Strict Implicit. Unset Printing Implicit Defensive.
Import GRing.Theory.
Local Open Scope ring_scope.
Delimit Scope Z_scope with Z.
Local Notation integers g := (fun i j => inject_Z (g i j)).
Local Notation rationals g := (fun i j => ratZ (g i j)).
Local Notation MI := PropsMat.MI.
Local Notation MZ := PropsMat.MZ.
(** h is the reduced form of g; h is the inverse of g *)
Local Notation reduced n c g h := (is_rref n c (rationals h) /\ row_equivalent n c (rationals g) (rationals h)).
Local Notation inverts n h g := (mx n n h *m mx n n g = 1%:M /\ mx n n g *m mx n n h = 1%:M).

(** ** C89: rref() and inverse() on truncating integer types *)
Lemma MI_of r c l : length l = (r * c)%coq_nat -> (forall k, List.In k l -> (-1 <= k <= 2)%Z) -> mat_of R_int (MI r c l) r c (fun i j => List.nth (i * c + j)%coq_nat l Z0).
Proof.
  move=> L B. split=> //. split=> //. split; first by rewrite /= List.map_length. move=> i j Hi Hj.
  have K : (i * c + j < length l)%coq_nat by rewrite L; apply: (PeanoNat.Nat.lt_le_trans _ (i.+1 * c)%coq_nat); [rewrite /=; lia|apply: PeanoNat.Nat.mul_le_mono_r; lia].
  exists (PropsMat.I (List.nth (i * c + j)%coq_nat l Z0)). split.
  - rewrite /= List.nth_error_map (List.nth_error_nth' l Z0 K). by [].
  - apply: Int_const_exact. move: (B _ (List.nth_In l Z0 K)). move: (List.nth _ _ _) => z. lia.
Qed.
Local Notation entries c l := (fun i j => List.nth (i * c + j)%coq_nat l Z0).
(** Quotients are truncated: rref() of (2 1) is (1 0), which spans something else *)
Theorem C89_rref_refuted : exists m d (g h : nat -> nat -> Z), mat_of R_int m 1%N 2%N g /\ rref Int_ops m = Ok d /\ mat_of R_int d 1%N 2%N h /\
  ~ row_equivalent 1 2 (rationals g) (rationals h).
Proof.
  exists (MI 1%N 2%N [:: 2; 1]%Z), (MI 1%N 2%N [:: 1; 0]%Z), (entries 2%N [:: 2; 1]%Z), (entries 2%N [:: 1; 0]%Z). split; last split; last split.
  - apply: MI_of => // k /= [<-|[<-|//]]; lia.
  - by vm_compute.
  - apply: MI_of => // k /= [<-|[<-|//]]; lia.
  - move=> [P UP E]. have H (j : 'I_2) : mx 1 2 (rationals (entries 2%N [:: 1; 0]%Z)) ord0 j = (P *m mx 1 2 (rationals (entries 2%N [:: 2; 1]%Z))) ord0 j by rewrite E.
    have H0 := H ord0. have H1 := H (lift ord0 ord0). move: H0 H1. rewrite !mxE !big_ord_recl !big_ord0 !mxE /= !addr0.
    move=> H0 H1. have Z : P ord0 ord0 = 0 by rewrite -[LHS]mulr1; symmetry; exact: H1. by move: H0; rewrite Z mul0r.
Qed.
(** inverse() returns a matrix that is no inverse, even where there is one: (2 1; 1 1) *)
Theorem C89_inverse_refuted : exists m d (g h : nat -> nat -> Z), mat_of R_int m 2%N 2%N g /\ \det (mx 2 2 g) = 1 /\ inverse Int_ops m = Ok d /\ mat_of R_int d 2%N 2%N h /\
  mx 2 2 h *m mx 2 2 g <> 1%:M.
Proof.
  exists (MI 2%N 2%N [:: 2; 1; 1; 1]%Z), (MI 2%N 2%N [:: 0; 0; 0; 1]%Z), (entries 2%N [:: 2; 1; 1; 1]%Z), (entries 2%N [:: 0; 0; 0; 1]%Z). split; last split; last split; last split.
  - apply: MI_of => // k /= [<-|[<-|[<-|[<-|//]]]]; lia.
  - by rewrite (expand_det_row _ ord0) !big_ord_recl big_ord0 /cofactor !det_mx11 !mxE.
  - by vm_compute.
  - apply: MI_of => // k /= [<-|[<-|[<-|[<-|//]]]]; lia.
  - move=> E. have := congr1 (fun M : 'M_2 => M ord0 ord0) E. by rewrite !mxE !big_ord_recl big_ord0 !mxE.
Qed.
(** Exact when the elimination in rational arithmetic meets integers only; a division of
    Int may still abort *)
Theorem C89_exact_partial : forall m n c (g : nat -> nat -> Z) r, mat_of R_int m n c g ->
  (rref (watched integral) (table n c (integers g)) = Ok r ->
    (exists d h, rref Int_ops m = Ok d /\ mat_of R_int d n c h /\ reduced n c g h) \/ rref Int_ops m = Abort) /\
  (n = c -> inverse (watched integral) (table n c (integers g)) = Ok r ->
    (exists d h, inverse Int_ops m = Ok d /\ mat_of R_int d n n h /\ inverts n h g) \/ inverse Int_ops m = Abort).
Proof.
  move=> m n c g r Hm. have Hs := @integers_table (fun _ => True) _ _ _ _ Hm (fun _ _ _ _ => Logic.I). split=> [Er|E Er]; last subst c.
  - case: (rref_whole Int_ring_any Int_field_any (@is_Int_R _) Hs Er) => [[d [Ed [h H]]]|[[] [// _ Ed]]]; [left; by exists d, h|by right].
  - case: (inverse_whole Int_ring_any Int_field_any (@is_Int_R _) Hs Er) => [[d [Ed [h H]]]|[[] [// _ Ed]]]; [left; by exists d, h|by right].
Qed.
(** it does not while everything is below 10^18 *)
Theorem C89_exact_small_partial : forall m n c (g : nat -> nat -> Z) r, mat_of R_int m n c g ->
  (forall i j, (i < n)%coq_nat -> (j < c)%coq_nat -> (Z.abs (g i j) < 10 ^ 18)%Z) ->
  (rref (watched (small_integral (10 ^ 18 - 1)%Z)) (table n c (integers g)) = Ok r ->
    exists d h, rref Int_ops m = Ok d /\ mat_of R_int d n c h /\ reduced n c g h) /\
  (n = c -> inverse (watched (small_integral (10 ^ 18 - 1)%Z)) (table n c (integers g)) = Ok r ->
    exists d h, inverse Int_ops m = Ok d /\ mat_of R_int d n n h /\ inverts n h g).
Proof.
  move=> m n c g r Hm Hb. have Hs := @integers_table below18 _ _ _ _ Hm Hb. split=> [Er|E Er]; last subst c.
  - have [d [Ed [h H]]] := ret_False _ _ (rref_whole Int_ring_18 Int_field_18 (@is_Int_R _) Hs Er). by exists d, h.
  - have [d [Ed [h H]]] := ret_False _ _ (inverse_whole Int_ring_18 Int_field_18 (@is_Int_R _) Hs Er). by exists d, h.
Qed.
(** int: the results must fit as well *)
Theorem C89_exact_int32_partial : forall m n c (g : nat -> nat -> Z) r, mat_of R32 m n c g ->
  (rref (watched integral32) (table n c (integers g)) = Ok r ->
    exists d h, rref int32_ops m = Ok d /\ mat_of R32 d n c h /\ reduced n c g h) /\
  (n = c -> inverse (watched integral32) (table n c (integers g)) = Ok r ->
    exists d h, inverse int32_ops m = Ok d /\ mat_of R32 d n n h /\ inverts n h g).
Proof.
  move=> m n c g r Hm. have Hs := int32_table Hm. split=> [Er|E Er]; last subst c.
  - have [d [Ed [h H]]] := ret_False _ _ (rref_whole (int32_ring _ representable_32) (int32_field _ representable_32) is_int32_R Hs Er). by exists d, h.
  - have [d [Ed [h H]]] := ret_False _ _ (inverse_whole (int32_ring _ representable_32) (int32_field _ representable_32) is_int32_R Hs Er). by exists d, h.
Qed.
(** Int: an elimination that divides by 1 and -1 only is exact and never aborts *)
Theorem C89_units_partial : forall m n c (g : nat -> nat -> Z) r, mat_of R_int m n c g ->
  (rref (units (fun _ => true)) (table n c g) = Ok r ->
    exists d h, rref Int_ops m = Ok d /\ mat_of R_int d n c h /\ reduced n c g h) /\
  (n = c -> inverse (units (fun _ => true)) (table n c g) = Ok r ->
    exists d h, inverse Int_ops m = Ok d /\ mat_of R_int d n n h /\ inverts n h g).
Proof.
  move=> m n c g r Hm. have Hs : mat_sim holds_Int (table n c g) m by exact: table_sim. split=> [Er|E Er]; last subst c.
  - have [d [Ed Hd]] := ret_False _ _ (rref_sim _ _ _ _ (units_Int_ring _) (units_Int_field _) _ _ Hs r Er).
    have [h [Hr H]] := units_rref Er. exists d, h. split=> //. split=> //. exact: (sim_table _ _ _ _ _ _ Hd Hr).
  - have [d [Ed Hd]] := ret_False _ _ (inverse_sim _ _ _ _ (units_Int_ring _) (units_Int_field _) _ _ Hs r Er).
    have [h [Hr H]] := units_inverse Er. exists d, h. split=> //. split=> //. exact: (sim_table _ _ _ _ _ _ Hd Hr).
Qed.
(** so are upper triangular matrices with 1 or -1 in every place of the diagonal, of any
    size and with any entries *)
Theorem C89_triangular_partial : forall m n c (g : nat -> nat -> Z), mat_of R_int m n c g -> (n <= c)%coq_nat ->
  (forall i j, (i < n)%coq_nat -> (j < i)%coq_nat -> g i j = Z0) -> (forall i, (i < n)%coq_nat -> Z.abs (g i i) = 1%Z) ->
  (exists d h, rref Int_ops m = Ok d /\ mat_of R_int d n c h /\ reduced n c g h) /\
  (n = c -> exists d h, inverse Int_ops m = Ok d /\ mat_of R_int d n n h /\ inverts n h g).
Proof.
  move=> m n c g Hm Hc Hl Hd. have Hu : unit_upper n 0 g by move=> i Hi; split=> [j Hj|]; [apply: Hl; lia|apply: Hd; lia].
  split=> [|E].
  - have [r Er] := rref_units n c g Hc Hu. have [H _] := C89_units_partial r Hm. exact: H.
  - subst c. have [r Er] := inverse_units Hu. have [_ H] := C89_units_partial r Hm. exact: H.
Qed.
Local Notation MQ := PropsSim.MQ.
Example C89_ex :
  rref Int_ops (MI 1%N 2%N [:: 2; 1]%Z) = Ok (MI 1%N 2%N [:: 1; 0]%Z) /\
  rref (watched integral) (MQ 2%N 3%N [:: 2; 4; 6; 3; 7; -1]%Z) = Ok (MQ 2%N 3%N [:: 1; 0; 23; 0; 1; -10]%Z) /\
  rref Int_ops (MI 2%N 3%N [:: 2; 4; 6; 3; 7; -1]%Z) = Ok (MI 2%N 3%N [:: 1; 0; 23; 0; 1; -10]%Z) /\
  rref int32_ops (MZ 2%N 3%N [:: 2; 4; 6; 3; 7; -1]%Z) = Ok (MZ 2%N 3%N [:: 1; 0; 23; 0; 1; -10]%Z) /\
  inverse Int_ops (MI 2%N 2%N [:: 2; 1; 1; 1]%Z) = Ok (MI 2%N 2%N [:: 0; 0; 0; 1]%Z) /\
  inverse Int_ops (MI 2%N 2%N [:: 1; 1; 1; 2]%Z) = Ok (MI 2%N 2%N [:: 2; -1; -1; 1]%Z) /\
  inverse Int_ops (MI 1%N 1%N [:: 2]%Z) = Ok (MI 1%N 1%N [:: 0]%Z) /\
  inverse (watched integral) (MQ 1%N 1%N [:: 2]%Z) = UB /\ inverse (units (fun _ => true)) (MZ 1%N 1%N [:: 2]%Z) = UB.
Proof. by vm_compute. Qed.
Example C89_triangular_ex :
  inverse Int_ops (MI 3%N 3%N [:: 1; 1000000000; 2; 0; -1; 1000000000; 0; 0; 1]%Z) =
    Ok (MI 3%N 3%N [:: 1; 1000000000; -1000000000000000002; 0; -1; 1000000000; 0; 0; 1]%Z) /\
  inverse Int_ops (MI 2%N 2%N [:: 0; 1; 0; 1]%Z) = Throw DomainError.
Proof. by vm_compute. Qed.
Print Assumptions C89_rref_refuted.
Print Assumptions C89_inverse_refuted.
Print Assumptions C89_exact_partial.
Print Assumptions C89_exact_small_partial.
Print Assumptions C89_exact_int32_partial.
Print Assumptions C89_units_partial.
Print Assumptions C89_triangular_partial.
