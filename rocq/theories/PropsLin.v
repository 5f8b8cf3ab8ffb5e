(** Property theorems about programs of Vec and Mat calls: C117. *)
From Coq Require Import QArith.
From Verif Require Import Base IntModel IntSpec ElemModel ElemSpec ElemProofs ElemInst VecModel MatModel MatSpec MatProofs
  Int32Spec Int32Proofs LinSpec LinCalls LinProofs LinInst.
From Verif Require PropsMat PropsFrac PropsFracMat.
From mathcomp Require Import all_ssreflect all_algebra zify ssrZ.
From Verif Require Import MatAlg MatCof MatDet MatRrefSpec MatRref PropsMatAlg PropsInt32Alg.
Set Implicit Arguments. Unset Strict Implicit. Unset Printing Implicit Defensive.
Import GRing.Theory.
Local Open Scope ring_scope.
Delimit Scope Z_scope with Z.

Definition ZA : algebra Z := Z_algebra (fun n g => \det (mx n n g)).

(** Vec<Int> and Mat<Int>, the elements in any representation. *)
Lemma int_any : exact_elements Int_ops ZA may_abort R_any int_features.
Proof.
  have D1 (m : Mat Int) n g : mat_of R_any m n n g -> (0 < n)%coq_nat ->
    ret may_abort (row_cofactor_expansion Int_ops m) (fun x => R_any x (\det (mx n n g))) /\
    ret may_abort (col_cofactor_expansion Int_ops m) (fun x => R_any x (\det (mx n n g))).
  { case: n => [|n] Hm Hn; first by move/PeanoNat.Nat.nlt_0_r: Hn.
    exact: (@C49_value Int _ Int_ops may_abort R_any any_zero any_addA any_subA any_sub any_mul any_eq n m g Hm). }
  by apply: Int_any => m n g Hm Hn; have [] := D1 m n g Hm Hn.
Qed.
Lemma int_plain : exact_elements Int_ops ZA never R_int plain_features.
Proof.
  have D (m : Mat Int) n g : mat_of R_int m n n g -> (0 < n)%coq_nat ->
    ret never (row_cofactor_expansion Int_ops m) (fun x => R_int x (\det (mx n n g))) /\
    ret never (col_cofactor_expansion Int_ops m) (fun x => R_int x (\det (mx n n g))).
  { case: n => [|n] Hm Hn; first by move/PeanoNat.Nat.nlt_0_r: Hn.
    exact: (@C49_value Int _ Int_ops never R_int (Int_const_exact 0 ltac:(lia))
      Int_addA_exact Int_subA_exact Int_sub_exact Int_mul_exact Int_eq_exact n m g Hm). }
  by apply: Int_plain => m n g Hm Hn; have [] := D m n g Hm Hn.
Qed.
Lemma int_machine : exact_elements int32_ops ZA may_overflow R32 int32_features.
Proof.
  have D (m : Mat Z) n g : mat_of R32 m n n g -> (0 < n)%coq_nat ->
    ret may_overflow (row_cofactor_expansion int32_ops m) (fun x => R32 x (\det (mx n n g))) /\
    ret may_overflow (col_cofactor_expansion int32_ops m) (fun x => R32 x (\det (mx n n g))).
  { case: n => [|n] Hm Hn; first by move/PeanoNat.Nat.nlt_0_r: Hn.
    exact: (@C49_value Z _ int32_ops may_overflow R32 zero_fits
      (R32_opA Z.add (addA int32_ops) (fun _ _ => erefl) (fun _ => erefl)) (R32_opA Z.sub (subA int32_ops) (fun _ _ => erefl) (fun _ => erefl))
      (R32_op Z.sub (sub int32_ops) (fun _ _ => erefl)) (R32_op Z.mul (mul int32_ops) (fun _ _ => erefl)) R32_eq n m g Hm). }
  by apply: int32_overflows => m n g Hm Hn; have [] := D m n g Hm Hn.
Qed.

(** A field: row reduction and inverses are those of linear algebra. *)
Section Field.
Context {K : fieldType} (z : Z -> K) (fr : option K).
Definition K_algebra : algebra K := {|
  zero := 0; one := 1; lit := z; fadd := +%R; fsub := (fun a b => a - b); fmul := *%R; fdiv := (fun a b => a / b); fneg := -%R;
  feq := (fun a b => a == b); fdet := (fun n g => \det (mx n n g));
  is_reduced := (fun n c g h => is_rref n c h /\ row_equivalent n c g h);
  is_inverse := (fun n g h => mx n n h *m mx n n g = 1%:M) |}.
Local Notation E := (exact_ops z fr +%R (fun a b => a - b) *%R (fun a b => a / b) -%R (fun a b => a == b)).
Lemma field_elements : z Z0 = 0 -> z (Zpos xH) = 1 -> z (Zneg xH) = -1 -> exact_elements E K_algebra never eq (fun _ => True).
Proof.
  move=> z0 z1 zn1. split.
  - exact: z0.
  - exact: z1.
  - by [].
  - by move=> _ x a ->; left; exists (- a).
  - exact: exact_add.
  - exact: exact_sub.
  - exact: exact_mul.
  - exact: exact_addA.
  - exact: exact_subA.
  - by move=> x y a b -> ->; left; exists (a == b).
  - move=> _. exact: exact_mulA.
  - move=> _ x y a b -> -> /=. rewrite z0. case: (b == 0); first by left. by left; exists (a / b).
  - move=> _ x y a b -> -> /=. rewrite z0. case: (b == 0); first by left. by left; exists (a / b).
  - move=> _ x a -> /=. rewrite z0. case: (a == 0); first by left. by left; exists (a / a).
  - move=> _ a /= /negbT N. by rewrite divff // (negbTE (oner_neq0 K)).
  - move=> _ m [|n] g Hm Hn; first by move/PeanoNat.Nat.nlt_0_r: Hn.
    have [-> _] := @C49_ring K z fr (fun a b => a / b) z0 m n g Hm. by apply: ret_ok.
  - move=> _ m [|n] g Hm Hn; first by move/PeanoNat.Nat.nlt_0_r: Hn.
    have [_ ->] := @C49_ring K z fr (fun a b => a / b) z0 m n g Hm. by apply: ret_ok.
  - move=> _ m n g Hm. rewrite (@C50_field K z fr z0 z1 zn1 m n g Hm). by apply: ret_ok.
  - move=> _ m n c g Hm. have [r [h [-> [Hr [R1 [R2 _]]]]]] := @C51_field K z fr z0 m n c g Hm. apply: ret_ok. by exists h.
  - move=> _ m n c g Hm. have [r [h [E1 [Hr [R1 R2]]]]] := @C51_inplace_field K z fr z0 m n c g Hm. rewrite E1. left. split=> //. by exists h.
  - move=> _ m n g Hm /=. have [D1 D2] := @C52_field K z fr z0 z1 m n g Hm. case: eqP => D; first by left; exact: D2.
    have [r [h [-> [Hr [R1 R2]]]]] := D1 D. apply: ret_ok. by exists h.
Qed.
End Field.

(** *** C117 *)
(** Any program of calls of Vec<Int> and Mat<Int>, the elements in any
    representation: it computes what it means or stops at an assertion. *)
Theorem C117_int : forall p ms st, holds_value R_any ms st -> List.Forall (fun c => List.Forall int_features (uses c)) p ->
  strays ZA ms p \/
  match execute Int_ops st p with
  | Ok (st', l) => exists ms', computes ZA ms p ms' l /\ holds_value R_any ms' st'
  | Abort => True
  | Throw _ | UB | OutOfFuel => False
  end.
Proof.
  move=> p ms st Hs Hp. have [?|H] := programs Int_ops ZA may_abort R_any int_features int_any p ms st Hs Hp; first by left. right.
  by case: (execute Int_ops st p) H => [[]|?| | |].
Qed.
(** Without division and the elements' *= it always finishes, in canonical form. *)
Theorem C117_int_plain : forall p ms st, holds_value R_int ms st -> List.Forall (fun c => List.Forall plain_features (uses c)) p ->
  strays ZA ms p \/ exists st' l ms', execute Int_ops st p = Ok (st', l) /\ computes ZA ms p ms' l /\ holds_value R_int ms' st'.
Proof.
  move=> p ms st Hs Hp. have [?|H] := programs Int_ops ZA never R_int plain_features int_plain p ms st Hs Hp; first by left. right.
  case: (execute Int_ops st p) H => [[st' l]|?| | |] //. move=> [ms' [H1 H2]]. by exists st', l, ms'.
Qed.
(** int: it computes what it means or an operation overflows. *)
Theorem C117_int32 : forall p ms st, holds_value R32 ms st -> List.Forall (fun c => List.Forall int32_features (uses c)) p ->
  strays ZA ms p \/
  match execute int32_ops st p with
  | Ok (st', l) => exists ms', computes ZA ms p ms' l /\ holds_value R32 ms' st'
  | UB => True
  | Throw _ | Abort | OutOfFuel => False
  end.
Proof.
  move=> p ms st Hs Hp. have [?|H] := programs int32_ops ZA may_overflow R32 int32_features int_machine p ms st Hs Hp; first by left. right.
  by case: (execute int32_ops st p) H => [[]|?| | |].
Qed.
(** Frac, reduced fractions: it computes what it means over the rationals or stops
    at an assertion. *)
Theorem C117_frac : forall p ms st, holds_value R_frac ms st -> List.Forall (fun c => List.Forall frac_features (uses c)) p ->
  strays Q_algebra ms p \/
  match execute Frac_ops st p with
  | Ok (st', l) => exists ms', computes Q_algebra ms p ms' l /\ holds_value R_frac ms' st'
  | Abort => True
  | Throw _ | UB | OutOfFuel => False
  end.
Proof.
  move=> p ms st Hs Hp. have [?|H] := programs Frac_ops Q_algebra may_abort R_frac frac_features frac_elements p ms st Hs Hp; first by left. right.
  by case: (execute Frac_ops st p) H => [[]|?| | |].
Qed.
(** A field: every program, row reduction and inverses included, computes what it
    means. *)
Theorem C117_field : forall (K : fieldType) (z : Z -> K) (fr : option K), z Z0 = 0 -> z (Zpos xH) = 1 -> z (Zneg xH) = -1 ->
  forall p ms st, holds_value eq ms st ->
  strays (K_algebra z) ms p \/
  exists st' l ms', execute (exact_ops z fr +%R (fun a b => a - b) *%R (fun a b => a / b) -%R (fun a b => a == b)) st p = Ok (st', l) /\
    computes (K_algebra z) ms p ms' l /\ holds_value eq ms' st'.
Proof.
  move=> K z fr z0 z1 zn1 p ms st Hs.
  have Hp : List.Forall (fun c => List.Forall (fun _ : feature => True) (uses c)) p by apply/List.Forall_forall => c _; apply/List.Forall_forall.
  have [?|H] := programs _ _ _ _ _ (@field_elements K z fr z0 z1 zn1) p ms st Hs Hp; first by left. right.
  move: H. case: (execute _ st p) => [[st' l]|?| | |] //. move=> [ms' [H1 H2]]. by exists st', l, ms'.
Qed.
(** A program that computes something does not stray: the two cases exclude each
    other over the integers. *)
Theorem C117_exclusive : forall p ms ms' l, computes ZA ms p ms' l -> strays ZA ms p -> False.
Proof.
  have D ms c e e' : means ZA ms c e -> means ZA ms c e' -> e = e'.
  { case: c => /=; try (by move=> *; congruence); try (by move=> ? ? [? []]); try (by move=> ? [? []]).
    move=> d a. case: (_ =? _)%nat; last by move=> -> ->. case: Z.eqb; first by move=> -> ->. by move=> [? []]. }
  move=> p ms ms' l. elim=> [ms0|ms0 c e p0 ms1 l1 M N _ IH] S; first by inversion S.
  inversion S as [? ? ? M'|? ? e' ? M' N' S']; subst; first by have := D _ _ _ _ M M'.
  apply: IH. by rewrite (D _ _ _ _ M M').
Qed.
(** The state before anything is declared. *)
Definition blank {T} (x : T) : objects T := mkObjects (fun _ => x) (fun _ => [::]) (fun _ => mkMat 0%N 0%N [::]) (fun _ => false).
Definition blank_values {A} (a : A) : values A := mkValues (fun _ => a) (fun _ => (0%N, fun _ => a)) (fun _ => (0%N, 0%N, fun _ _ => a)) (fun _ => false).
Theorem C117_start : forall T A (R : T -> A -> Prop) x a, R x a -> holds_value R (blank_values a) (blank x).
Proof.
  move=> T A R x a H. split=> //. split; first by move=> n; split=> // i Hi; case/PeanoNat.Nat.nlt_0_r: Hi.
  split=> // n. split=> //. split=> //. split=> // i j Hi; case/PeanoNat.Nat.nlt_0_r: Hi.
Qed.

Definition shown {T} (r : res (objects T * list (option exn))) (s v m : nat) :=
  x <- r ;; Ok (sc x.1 s, ve x.1 v, ma x.1 m, bo x.1 0%N, x.2).
(** (2, 5, 2) doubled by += itself and scaled by its own first component, a failed
    sum, a matrix squared by *= itself, its determinant by expansion *)
Definition example : list lcall :=
  [:: Lit 0 2; VConst 0 3 0; Lit 1 5; VSet 0 1 1; VAssign Plus 0 0; VMulOwn 0 0; VNew 1 2; VAddSub Plus 0 0 1;
      VCat 2 0 1; MArray 0 2 2 2; MProdA 0 0; MTrans 1 0; MEq 0 0 1; MRow 2 0; SDiv 3 0 4; MDivA 0 0]%N%Z.
Example C117_ex :
  shown (execute Int_ops (blank (PropsMat.I 0)) example) 2 0 0 =
    Ok (PropsMat.I 104857600, [:: PropsMat.I 16; PropsMat.I 160; PropsMat.I 64]%Z, PropsMat.MI 2%N 2%N [:: 5248; 1280; 512; 5120]%Z, false,
        [:: None; None; None; None; None; None; None; Some InvalidArgument; None; None; None; None; None; None; Some DivideByZero; None]) /\
  execute int32_ops (blank Z0) example = UB /\
  shown (execute int32_ops (blank Z0) (take 13 example)) 0 0 0 =
    Ok (2%Z, [:: 16; 160; 64]%Z, PropsMat.MZ 2%N 2%N [:: 10496; 2560; 1024; 10240]%Z, false,
        [:: None; None; None; None; None; None; None; Some InvalidArgument; None; None; None; None; None]) /\
  List.Forall (fun c => List.Forall int_features (uses c)) example.
Proof. split; first by vm_compute. split; first by vm_compute. split; first by vm_compute. by repeat constructor. Qed.
(** 0 *= -10^18 has three bins and a sign; adding to it stops at an assertion,
    subtracting it does not, but leaves leading zeros *)
Definition stopped (c : lcall) : list lcall := [:: VNew 0 1; Lit 0 (-1000000000000000000); VMulA 0 0; Lit 2 7; VConst 1 1 2; c]%N%Z.
Example C117_ex_stop :
  execute Int_ops (blank (PropsMat.I 0)) (stopped (VAssign Plus 0 1)) = Abort /\
  shown (execute Int_ops (blank (PropsMat.I 0)) (stopped (VAddSub Minus 1 1 0))) 2 1 0 =
    Ok (PropsMat.I 7, [:: mkInt [:: 7; 0; 0]%Z false], mkMat 0%N 0%N [::], false, [:: None; None; None; None; None; None]).
Proof. by split; vm_compute. Qed.
(** fractions: 2/6 is stored in a matrix, which is squared; a quotient by zero is
    caught *)
Definition fractions : list lcall := [:: Lit 0 2; Lit 1 6; SDiv 2 0 1; MNew 0 2 2 2; MSet 0 0 1 0; MProdA 0 0; Lit 3 0; MDiv 1 0 3; MTrace 4 0]%N%Z.
Example C117_ex_frac : shown (execute Frac_ops (blank (PropsFrac.fr 0 1)) fractions) 4 0 0 =
    Ok (PropsFrac.fr 14 9, [::], PropsFracMat.MF 2%N 2%N [:: (7, 9); (4, 3); (2, 9); (7, 9)]%Z, false,
        [:: None; None; None; None; None; None; None; Some DivideByZero; None]) /\
  List.Forall (fun c => List.Forall frac_features (uses c)) fractions.
Proof. split; first by vm_compute. by repeat constructor. Qed.
(** over the rationals: a singular matrix has no inverse, a changed one has *)
Definition inverted : list lcall := [:: Lit 0 2; MNew 0 2 2 0; MInv 1 0; Lit 1 5; MSet 0 0 0 1; MInv 1 0; MProd 2 0 1; MIdent 3 2; MEq 0 2 3; MDet 2 0]%N%Z.
Example C117_ex_field : shown (execute rat_ops (blank 0%:Q) inverted) 2 0 2 =
  Ok (6%:Q, [::], mkMat 2%N 2%N [:: Some 1; Some 0; Some 0; Some 1], true, [:: None; None; Some DomainError; None; None; None; None; None; None; None]).
Proof. by vm_compute. Qed.
Print Assumptions C117_int.
Print Assumptions C117_int_plain.
Print Assumptions C117_int32.
Print Assumptions C117_frac.
Print Assumptions C117_field.
Print Assumptions C117_exclusive.
Print Assumptions C117_start.
