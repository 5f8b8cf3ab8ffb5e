(** Property theorems about Mat that need linear algebra: C48 (in matrix form), C49-C52. *)
From Coq Require Import QArith.
From Verif Require Import Base IntModel IntSpec ElemModel ElemSpec ElemProofs ElemInst VecModel MatModel MatSpec MatProofs.
From Verif Require PropsMat.
From mathcomp Require Import all_ssreflect all_algebra zify ssrZ.
From Verif Require Import MatAlg MatCof MatDet MatRrefSpec MatRref MatUnique.
Set Implicit Arguments. Unset Strict Implicit. Unset Printing Implicit Defensive.
Import GRing.Theory.
Local Open Scope ring_scope.
Delimit Scope Z_scope with Z.

(** *** C48: over a commutative ring, the operations of Mat are those of matrices *)
Section Ring.
Context {A : comRingType} (z : Z -> A) (fr : option A) (d : A -> A -> A) (z0 : z Z0 = 0).
Local Notation E := (exact_ops z fr +%R (fun a b => a - b) *%R d -%R (fun a b => a == b)).

Lemma sum_to_big n (g : nat -> A) : sum_to 0 +%R n g = \sum_(0 <= k < n) g k.
Proof. elim: n => [|n IH] /=; first by rewrite big_nil. by rewrite big_nat_recr //= IH. Qed.
Lemma ring_eq x y a b : x = a -> y = b -> ret never (ElemModel.eqb E x y) (fun e => e = true <-> a = b).
Proof. move=> -> ->. left. exists (a == b). split=> //. by split => [/eqP|->]; rewrite ?eqxx. Qed.

Theorem C48_product_ring : forall x y n m p (g h : nat -> nat -> A), mat_of eq x n m g -> mat_of eq y m p h ->
  exists r k, M_product E x y = Ok r /\ mat_of eq r n p k /\ mx n p k = mx n m g *m mx m p h.
Proof.
  move=> x y n m p g h Hx Hy.
  have [_ [H _]] := PropsMat.C48_product _ _ E never eq 0 +%R *%R z0 (exact_addA _ _ _ _ _ _ _ _) (exact_mul _ _ _ _ _ _ _ _) x y n m m p g h Hx Hy.
  have [/ret_False [r [Er Hr]] _] := H erefl. exists r, (fun i j => \sum_(0 <= k < m) g i k * h k j). split=> //. split; last by rewrite mx_mul.
  eapply mat_of_ext; [exact Hr|]. move=> i j _ _. cbn beta. exact: sum_to_big.
Qed.
Theorem C48_trace_ring : forall x n (g : nat -> nat -> A), mat_of eq x n n g -> MatModel.trace E x = Ok (\tr (mx n n g)).
Proof.
  move=> x n g Hx. have [_ H] := PropsMat.C48_trace _ _ E never eq 0 +%R z0 (exact_addA _ _ _ _ _ _ _ _) x n n g Hx.
  have [t [-> ->]] := ret_False _ _ (H erefl). congr Ok. rewrite sum_to_big /mxtrace big_mkord. by apply: eq_bigr => i _; rewrite mxE.
Qed.

(** *** C49 *)
Theorem C49_ring : forall x n (g : nat -> nat -> A), mat_of eq x n.+1 n.+1 g ->
  row_cofactor_expansion E x = Ok (\det (mx n.+1 n.+1 g)) /\ col_cofactor_expansion E x = Ok (\det (mx n.+1 n.+1 g)).
Proof.
  move=> x n g Hx. split.
  - by have [t [-> ->]] := ret_False _ _ (@row_cofactor_ok _ _ E never eq z0 (exact_addA _ _ _ _ _ _ _ _) (exact_subA _ _ _ _ _ _ _ _)
      (exact_sub _ _ _ _ _ _ _ _) (exact_mul _ _ _ _ _ _ _ _) ring_eq n.+1 x g Hx).
  - by have [t [-> ->]] := ret_False _ _ (@col_cofactor_ok _ _ E never eq z0 (exact_addA _ _ _ _ _ _ _ _) (exact_subA _ _ _ _ _ _ _ _)
      (exact_sub _ _ _ _ _ _ _ _) (exact_mul _ _ _ _ _ _ _ _) ring_eq n.+1 x g Hx).
Qed.
End Ring.
(** every element type with exact operations on representations of ring elements *)
Theorem C49_value : forall (T : Type) (A : comRingType) (E : ops T) (ab : halt -> Prop) (R : T -> A -> Prop), R (of_int E 0) 0 ->
  assign_exact ab R R R (addA E) +%R -> assign_exact ab R R R (subA E) (fun a b => a - b) ->
  binary_exact ab R (sub E) (fun a b => a - b) -> binary_exact ab R (mul E) *%R ->
  (forall x y a b, R x a -> R y b -> ret ab (ElemModel.eqb E x y) (fun e => e = true <-> a = b)) ->
  forall n m g, mat_of R m n.+1 n.+1 g ->
  ret ab (row_cofactor_expansion E m) (fun x => R x (\det (mx n.+1 n.+1 g))) /\
  ret ab (col_cofactor_expansion E m) (fun x => R x (\det (mx n.+1 n.+1 g))).
Proof. move=> T A E ab R H0 Ha HsA Hs Hm He n m g Hx. split; [exact: (row_cofactor_ok H0 Ha HsA Hs Hm He Hx)|exact: (col_cofactor_ok H0 Ha HsA Hs Hm He Hx)]. Qed.
Theorem C49_int : forall n m (g : nat -> nat -> Z), mat_of R_int m n.+1 n.+1 g -> exists d,
  row_cofactor_expansion Int_ops m = Ok d /\ col_cofactor_expansion Int_ops m = Ok d /\ canonical d /\ IntSpec.val d = \det (mx n.+1 n.+1 g).
Proof.
  move=> n m g Hm.
  have [/ret_False [d [E1 [C1 V1]]] /ret_False [d' [E2 [C2 V2]]]] := @C49_value Int _ Int_ops never R_int (Int_const_exact 0 ltac:(lia))
    Int_addA_exact Int_subA_exact Int_sub_exact Int_mul_exact Int_eq_exact n m g Hm.
  have Ed : d' = d. { refine (IntBasics.canonical_unique_lemma d' d C2 C1 _). exact (etrans V2 (esym V1)). }
  exists d. exact (conj E1 (conj (etrans E2 (f_equal Ok Ed)) (conj C1 V1))).
Qed.
Theorem C49_not_square : forall T (E : ops T) (m : Mat T) r c, dims m r c -> r <> c ->
  row_cofactor_expansion E m = Throw DomainError /\ col_cofactor_expansion E m = Throw DomainError.
Proof. exact @cofactor_bad. Qed.
Example C49_ex :
  row_cofactor_expansion Int_ops (PropsMat.MI 3%N 3%N [:: 2; -1; 0; 7; 5; 1; 0; 3; 1000000000]%Z) = Ok (PropsMat.I 16999999994%Z) /\
  col_cofactor_expansion Int_ops (PropsMat.MI 3%N 3%N [:: 2; -1; 0; 7; 5; 1; 0; 3; 1000000000]%Z) = Ok (PropsMat.I 16999999994%Z) /\
  row_cofactor_expansion int32_ops (PropsMat.MZ 1%N 2%N [:: 1; 2]%Z) = Throw DomainError /\
  row_cofactor_expansion int32_ops (PropsMat.MZ 0%N 0%N [::]) = Ok Z0.
Proof. by vm_compute. Qed.
Print Assumptions C48_product_ring.
Print Assumptions C48_trace_ring.
Print Assumptions C49_ring.
Print Assumptions C49_value.
Print Assumptions C49_int.
Print Assumptions C49_not_square.

(** *** C50-C52: fields *)
Section Field.
Context {K : fieldType} (z : Z -> K) (fr : option K) (z0 : z Z0 = 0) (z1 : z (Zpos xH) = 1) (zn1 : z (Zneg xH) = -1).
Local Notation E := (exact_ops z fr +%R (fun a b => a - b) *%R (fun a b => a / b) -%R (fun a b => a == b)).
Lemma field_div x y a b : x = a -> y = b -> b <> 0 -> ret never (ElemModel.div E x y) (fun r => r = a / b).
Proof. move=> -> -> /eqP N. left. exists (a / b). split=> //=. by rewrite z0 (negbTE N). Qed.
Lemma field_divA x y a b : x = a -> y = b -> b <> 0 -> ret never (divA E x (Some y)) (fun r => r = a / b).
Proof. move=> -> -> /eqP N. left. exists (a / b). split=> //=. by rewrite z0 (negbTE N). Qed.
Lemma field_eq x y a b : x = a -> y = b -> ret never (ElemModel.eqb E x y) (fun e => e = true <-> a = b).
Proof. move=> -> ->. left. exists (a == b). split=> //. by split => [/eqP|->]; rewrite ?eqxx. Qed.

Theorem C50_field : forall x n (g : nat -> nat -> K), mat_of eq x n n g -> MatModel.determinant E x = Ok (\det (mx n n g)).
Proof.
  move=> x n g Hx.
  by have [t [-> ->]] := ret_False _ _ (@determinant_ok _ _ E never eq z0 z1 zn1 (exact_subA _ _ _ _ _ _ _ _) (exact_mulA _ _ _ _ _ _ _ _)
    (exact_sub _ _ _ _ _ _ _ _) (exact_mul _ _ _ _ _ _ _ _) field_div field_eq n x g Hx).
Qed.
(** the result is the only matrix in reduced row echelon form that is row equivalent
    to the argument; it has the same row space *)
Theorem C51_field : forall x n c (g : nat -> nat -> K), mat_of eq x n c g -> exists r h,
  rref E x = Ok r /\ mat_of eq r n c h /\ is_rref n c h /\ row_equivalent n c g h /\ (mx n c h :=: mx n c g)%MS /\
  forall h', is_rref n c h' -> row_equivalent n c g h' -> mx n c h' = mx n c h.
Proof.
  move=> x n c g Hx.
  have [r [Er [h [Hr [Rh Eh]]]]] := ret_False _ _ (@rref_ok _ _ E never eq z0 (exact_subA _ _ _ _ _ _ _ _) (exact_mul _ _ _ _ _ _ _ _)
    field_divA field_eq n c x g Hx).
  exists r, h. split=> //. split=> //. split=> //. split=> //. split; first exact: req_rows.
  move=> h' Rh' Eh'. apply: mx_ext. apply: rref_unique => //. eapply req_trans; [exact: (req_sym Eh')|exact: Eh].
Qed.
Theorem C51_inplace_field : forall x n c (g : nat -> nat -> K), mat_of eq x n c g -> exists r h,
  inplace_rref E x = (r, Ok tt) /\ mat_of eq r n c h /\ is_rref n c h /\ row_equivalent n c g h.
Proof.
  move=> x n c g Hx.
  have [Er [h [Hr [Rh Eh]]]] := sret_False _ _ (@inplace_rref_ok _ _ E never eq z0 (exact_subA _ _ _ _ _ _ _ _) (exact_mul _ _ _ _ _ _ _ _)
    field_divA field_eq n c x g Hx).
  exists (inplace_rref E x).1, h. split=> //. by move: Er {Hr}; case: (inplace_rref E x) => ? ? /= ->.
Qed.
Theorem C52_field : forall x n (g : nat -> nat -> K), mat_of eq x n n g ->
  (\det (mx n n g) <> 0 -> exists r h, inverse E x = Ok r /\ mat_of eq r n n h /\
     mx n n h *m mx n n g = 1%:M /\ mx n n g *m mx n n h = 1%:M) /\
  (\det (mx n n g) = 0 -> inverse E x = Throw DomainError).
Proof.
  move=> x n g Hx. split.
  - move=> /eqP D. have U : mx n n g \in unitmx by rewrite unitmxE unitfE.
    have [r [Er [h [Hr Hh]]]] := ret_False _ _ (@inverse_ok _ _ E never eq z0 z1 (exact_subA _ _ _ _ _ _ _ _) (exact_mul _ _ _ _ _ _ _ _)
      field_divA field_eq n x g Hx U).
    exists r, h. split=> //. split=> //. by rewrite Hh mulVmx // mulmxV.
  - move=> D. have U : mx n n g \notin unitmx by rewrite unitmxE unitfE D eqxx.
    by have [//|/ret_False [? [_ []]]] := @inverse_singular _ _ E never eq z0 z1 (exact_subA _ _ _ _ _ _ _ _) (exact_mul _ _ _ _ _ _ _ _)
      field_divA field_eq n x g Hx U.
Qed.
End Field.
Theorem C50_not_square : forall T (E : ops T) (m : Mat T) r c, dims m r c -> r <> c -> MatModel.determinant E m = Throw DomainError.
Proof. exact @determinant_bad. Qed.
Theorem C52_not_square : forall T (E : ops T) (m : Mat T) r c, dims m r c -> r <> c -> inverse E m = Throw DomainError.
Proof. exact @inverse_bad. Qed.

(** every element type with exact operations on representations of field elements;
    division is only needed for non-zero divisors *)
Theorem C50_value : forall (T : Type) (K : fieldType) (E : ops T) (ab : halt -> Prop) (R : T -> K -> Prop),
  R (of_int E 0) 0 -> R (of_int E 1) 1 -> R (of_int E (-1)) (-1) ->
  assign_exact ab R R R (subA E) (fun a b => a - b) -> assign_exact ab R R R (mulA E) *%R ->
  binary_exact ab R (sub E) (fun a b => a - b) -> binary_exact ab R (mul E) *%R ->
  (forall x y a b, R x a -> R y b -> b <> 0 -> ret ab (ElemModel.div E x y) (fun r => R r (a / b))) ->
  (forall x y a b, R x a -> R y b -> ret ab (ElemModel.eqb E x y) (fun e => e = true <-> a = b)) ->
  forall n m g, mat_of R m n n g -> ret ab (MatModel.determinant E m) (fun x => R x (\det (mx n n g))).
Proof. exact @determinant_ok. Qed.
Theorem C51_value : forall (T : Type) (K : fieldType) (E : ops T) (ab : halt -> Prop) (R : T -> K -> Prop), R (of_int E 0) 0 ->
  assign_exact ab R R R (subA E) (fun a b => a - b) -> binary_exact ab R (mul E) *%R ->
  (forall x y a b, R x a -> R y b -> b <> 0 -> ret ab (divA E x (Some y)) (fun r => R r (a / b))) ->
  (forall x y a b, R x a -> R y b -> ret ab (ElemModel.eqb E x y) (fun e => e = true <-> a = b)) ->
  forall n c m g, mat_of R m n c g ->
  ret ab (rref E m) (fun r => exists h, mat_of R r n c h /\ is_rref n c h /\ row_equivalent n c g h).
Proof. exact @rref_ok. Qed.
Theorem C52_value : forall (T : Type) (K : fieldType) (E : ops T) (ab : halt -> Prop) (R : T -> K -> Prop), R (of_int E 0) 0 -> R (of_int E 1) 1 ->
  assign_exact ab R R R (subA E) (fun a b => a - b) -> binary_exact ab R (mul E) *%R ->
  (forall x y a b, R x a -> R y b -> b <> 0 -> ret ab (divA E x (Some y)) (fun r => R r (a / b))) ->
  (forall x y a b, R x a -> R y b -> ret ab (ElemModel.eqb E x y) (fun e => e = true <-> a = b)) ->
  forall n m g, mat_of R m n n g ->
  (mx n n g \in unitmx -> ret ab (inverse E m) (fun r => exists h, mat_of R r n n h /\ mx n n h = invmx (mx n n g))) /\
  (mx n n g \notin unitmx -> inverse E m = Throw DomainError \/ ret ab (inverse E m) (fun _ => False)).
Proof. move=> T K E ab R H0 H1 Hs Hm Hd He n m g Hx. split; [exact: (inverse_ok H0 H1 Hs Hm Hd He Hx)|exact: (inverse_singular H0 H1 Hs Hm Hd He Hx)]. Qed.

(** the rationals are such a field *)
Definition rat_ops : ops rat :=
  exact_ops (fun k => (int_of_Z k)%:~R) None +%R (fun a b => a - b) *%R (fun a b => a / b) -%R (fun a b => a == b).
Theorem C50_rat : forall x n (g : nat -> nat -> rat), mat_of eq x n n g -> MatModel.determinant rat_ops x = Ok (\det (mx n n g)).
Proof. exact: C50_field. Qed.
Theorem C52_rat : forall x n (g : nat -> nat -> rat), mat_of eq x n n g -> \det (mx n n g) <> 0 ->
  exists r h, inverse rat_ops x = Ok r /\ mat_of eq r n n h /\ mx n n h *m mx n n g = 1%:M.
Proof. move=> x n g Hx D. have [H _] := @C52_field _ (fun k => (int_of_Z k)%:~R) None erefl erefl x n g Hx. have [r [h [? [? [? _]]]]] := H D. by exists r, h. Qed.
(** computed with reduced fractions *)
Definition Q_ops : ops Q := exact_ops inject_Z None (fun a b => Qred (Qplus a b)) (fun a b => Qred (Qminus a b))
  (fun a b => Qred (Qmult a b)) (fun a b => Qred (Qdiv a b)) (fun a => Qred (Qopp a)) Qeq_bool.
Definition MQ (r c : nat) (l : list Z) : Mat Q := mkMat r c (List.map (fun k => Some (inject_Z k)) l).
Example C50_ex : MatModel.determinant Q_ops (MQ 3%N 3%N [:: 0; 1; 2; 1; 0; 3; 4; -3; 8]%Z) = Ok (inject_Z (-2)%Z) /\
  MatModel.determinant Q_ops (MQ 3%N 3%N [:: 1; 2; 3; 2; 4; 6; 1; 1; 1]%Z) = Ok (inject_Z 0%Z) /\
  MatModel.determinant Q_ops (MQ 1%N 2%N [:: 1; 2]%Z) = Throw DomainError.
Proof. by vm_compute. Qed.
Example C51_ex : rref Q_ops (MQ 3%N 4%N [:: 0; 2; 4; 2; 0; 1; 2; 3; 0; 3; 6; 9]%Z) = Ok (MQ 3%N 4%N [:: 0; 1; 2; 0; 0; 0; 0; 1; 0; 0; 0; 0]%Z).
Proof. by vm_compute. Qed.
Example C52_ex : inverse Q_ops (MQ 2%N 2%N [:: 2; 1; 5; 3]%Z) = Ok (MQ 2%N 2%N [:: 3; -1; -5; 2]%Z) /\
  inverse Q_ops (MQ 2%N 2%N [:: 2; 1; 4; 2]%Z) = Throw DomainError /\ inverse Q_ops (MQ 1%N 2%N [:: 2; 1]%Z) = Throw DomainError.
Proof. by vm_compute. Qed.
Print Assumptions C50_field.
Print Assumptions C50_not_square.
Print Assumptions C50_value.
Print Assumptions C50_rat.
Print Assumptions C51_field.
Print Assumptions C51_inplace_field.
Print Assumptions C51_value.
Print Assumptions C52_field.
Print Assumptions C52_not_square.
Print Assumptions C52_value.
Print Assumptions C52_rat.
