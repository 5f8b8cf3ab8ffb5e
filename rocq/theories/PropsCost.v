(** C107: how many operations on elements the algorithms of Mat take. The weights w are
    arbitrary, so that each kind of operation can be counted alone. *)
From Coq Require Import ZifyBool Factorial.
From Verif Require Import Base IntModel ElemModel ElemSpec VecModel MatModel MatSpec CostModel CostSpec CostProofs.
Local Open Scope Z_scope.

(** The counted algorithms return what the algorithms return. *)
Theorem C107_same : forall {T} (E : ops T) w (a b : Mat T),
  fst (M_product_c E w a b) = M_product E a b /\
  fst (determinant_c E w a) = determinant E a /\
  fst (row_cofactor_expansion_c E w a) = row_cofactor_expansion E a /\
  fst (col_cofactor_expansion_c E w a) = col_cofactor_expansion E a /\
  fst (inplace_rref_c E w a) = inplace_rref E a /\
  fst (rref_c E w a) = rref E a /\
  fst (inverse_c E w a) = inverse E a.
Proof.
  intros T E w a b. split; [apply M_product_e|]. split; [apply determinant_e|]. split; [apply row_expansion_e|]. split; [apply col_expansion_e|].
  split; [apply inplace_rref_e|]. split; [apply rref_e|apply inverse_e].
Qed.
Print Assumptions C107_same.

Section Bounds.
Context {T : Type} (E : ops T) (w : kind -> Z) (Hw : weights_ok w).

(** A product takes exactly rows * inner * cols products and as many sums. *)
Theorem C107_product : forall a b : Mat T,
  let n := Z.of_nat (rows a) * Z.of_nat (cols a) * Z.of_nat (cols b) in
  snd (M_product_c E w a b) <= n * (w Times + w AddSub) /\
  (forall m, M_product E a b = Ok m -> snd (M_product_c E w a b) = n * (w Times + w AddSub)).
Proof.
  intros a b n. unfold n. split.
  - etransitivity; [apply (cost_product E w Hw)|]. apply Z.eq_le_incl. ring.
  - intros m H. rewrite <- (M_product_e E w) in H. apply exact_product in H. rewrite H. ring.
Qed.

(** The determinant by elimination takes at most (n^3 - n)/3 products, differences and
    quotients, n^2 comparisons, 2n further products and one further quotient. *)
Theorem C107_determinant : forall m : Mat T, let n := Z.of_nat (rows m) in
  3 * snd (determinant_c E w m) <= (n ^ 3 - n) * (w Times + w Over + w AddSub) + 3 * (n ^ 2 * w Compare + 2 * n * w Times + w Over).
Proof. intros m n. etransitivity; [apply (cost_determinant E w Hw)|]. fold n. apply Z.eq_le_incl. ring. Qed.

(** Row reduction of an r x c matrix treats min(r, c) pivots: each takes c quotients and
    (r - 1) * c products and differences. The search for pivots takes r * c comparisons. *)
Theorem C107_rref : forall m : Mat T, let r := Z.of_nat (rows m) in let c := Z.of_nat (cols m) in
  let bound := Z.min r c * (c * w Over + (r - 1) * c * (w Times + w AddSub)) + r * c * w Compare in
  snd (inplace_rref_c E w m) <= bound /\ snd (rref_c E w m) <= bound.
Proof.
  intros m r c bound. assert (Eb : bound = Z.min r c * (c * w Over + (r - 1) * (c * (w Times + w AddSub))) + r * c * w Compare) by (unfold bound; ring).
  rewrite Eb. split; [apply (cost_inplace_rref E w Hw)|apply (cost_rref E w Hw)].
Qed.
Theorem C107_inverse : forall m : Mat T, let n := Z.of_nat (rows m) in
  snd (inverse_c E w m) <= 2 * n ^ 2 * w Over + 2 * (n ^ 3 - n ^ 2) * (w Times + w AddSub) + 3 * n ^ 2 * w Compare.
Proof. intros m n. etransitivity; [apply (cost_inverse E w Hw)|]. fold n. apply Z.eq_le_incl. ring. Qed.

(** Cofactor expansion takes at most [expansion_ops w n] operations, and exactly so many
    on a matrix without zero entries. *)
Theorem C107_expansion : forall m : Mat T,
  snd (row_cofactor_expansion_c E w m) <= expansion_ops w (rows m) /\
  snd (col_cofactor_expansion_c E w m) <= expansion_ops w (rows m).
Proof. intros m. split; [apply (cost_row_expansion E w Hw)|apply (cost_col_expansion E w Hw)]. Qed.
Theorem C107_expansion_exact : forall (m : Mat T) n, rows m = n -> cols m = n ->
  List.length (data m) = (n * n)%nat -> (forall x, In x (data m) -> exists y, x = Some y /\ eqb E y (of_int E 0) = Ok false) ->
  (forall v, row_cofactor_expansion E m = Ok v -> snd (row_cofactor_expansion_c E w m) = expansion_ops w n) /\
  (forall v, col_cofactor_expansion E m = Ok v -> snd (col_cofactor_expansion_c E w m) = expansion_ops w n).
Proof.
  intros m n Hr Hc Hl H.
  assert (Hm : mat_of (nonzero E) m n n (fun _ _ => tt)).
  { split; [exact Hr|]. split; [exact Hc|]. split; [exact Hl|]. intros i j Hi Hj.
    assert (L : (i * n + j < n * n)%nat) by nia. rewrite <- Hl in L. apply nth_error_Some in L.
    destruct (nth_error (data m) (i * n + j)) as [x|] eqn:Ex; [|congruence]. apply nth_error_In in Ex. destruct (H x Ex) as (y & -> & Hy). exists y. split; [reflexivity|exact Hy]. }
  split; intros v Hv.
  - unfold row_cofactor_expansion in Hv. rewrite <- (row_expansion_e E w) in Hv. eapply exact_row_expansion; eauto.
  - unfold col_cofactor_expansion in Hv. rewrite <- (col_expansion_e E w) in Hv. eapply exact_col_expansion; eauto.
Qed.
End Bounds.
Print Assumptions C107_product.
Print Assumptions C107_determinant.
Print Assumptions C107_rref.
Print Assumptions C107_inverse.
Print Assumptions C107_expansion.
Print Assumptions C107_expansion_exact.

(** In all, between 3/2 n! and 4 n! operations. *)
Theorem C107_factorial : forall n, (2 <= n)%nat ->
  3 * Z.of_nat (fact n) <= 2 * expansion_ops every_operation n < 8 * Z.of_nat (fact n).
Proof. intros n H. assert (G := factorial_ops n H). lia. Qed.
Print Assumptions C107_factorial.

(** Counts of one kind of operation over the integers modulo 101. *)
Definition GF : ops Z := exact_ops (fun k => k mod 101) None (fun a b => (a + b) mod 101) (fun a b => (a - b) mod 101) (fun a b => a * b mod 101)
  (fun a b => a * Z.modulo (b ^ 99) 101 mod 101) (fun a => (- a) mod 101) Z.eqb.
Definition only (k : kind) : kind -> Z := fun k' => match k, k' with Compare, Compare | AddSub, AddSub | Times, Times | Over, Over => 1 | _, _ => 0 end.
Definition counts {A} (f : (kind -> Z) -> A * Z) : list Z := map (fun k => snd (f (only k))) [Compare; AddSub; Times; Over].
Definition full (r c : nat) (l : list Z) : Mat Z := mkMat r c (map Some l).
Definition A4 := full 4 4 [1; 2; 3; 4; 5; 6; 7; 9; 10; 11; 13; 12; 13; 15; 14; 16].
Definition P3 := full 3 3 [0; 0; 1; 1; 0; 0; 0; 1; 0].
(** (4^3 - 4)/3 = 20 differences, 20 + 4 products and 20 + 1 quotients, here with no rows
    swapped; two swaps for a permutation; 9 comparisons for a zero matrix; 2 * 9 quotients and
    2 * (27 - 9) differences for an inverse *)
Example C107_ex :
  counts (fun w => determinant_c GF w A4) = [4; 20; 24; 21] /\ counts (fun w => determinant_c GF w P3) = [5; 8; 13; 9] /\
  counts (fun w => determinant_c GF w (full 3 3 (repeat 0 9))) = [9; 0; 3; 1] /\
  counts (fun w => rref_c GF w A4) = [4; 48; 48; 16] /\ counts (fun w => rref_c GF w (full 2 3 [0; 0; 5; 0; 0; 7])) = [5; 3; 3; 3] /\
  counts (fun w => inverse_c GF w P3) = [14; 36; 36; 18] /\
  counts (fun w => M_product_c GF w A4 (full 4 2 (repeat 1 8))) = [0; 32; 32; 0] /\
  counts (fun w => row_cofactor_expansion_c GF w A4) = [16; 28; 40; 0] /\ counts (fun w => col_cofactor_expansion_c GF w A4) = [16; 28; 40; 0] /\
  expansion_ops every_operation 4 = 84 /\ counts (fun w => row_cofactor_expansion_c GF w P3) = [3; 2; 3; 0].
Proof. vm_compute. auto 20. Qed.
