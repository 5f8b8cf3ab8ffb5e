(** Property theorems about programs of Vec<Int> and Mat<Int> calls without assertions: C136. *)
From Verif Require Import Base IntModel IntSpec ElemModel ElemSpec ElemProofs VecModel MatModel MatSpec LinSpec LinCalls LinProofs LinInst
  LinReleaseModel LinReleaseSpec LinReleaseProofs.
From mathcomp Require Import all_ssreflect all_algebra zify ssrZ.
From Verif Require Import MatAlg MatCof MatDet PropsMatAlg PropsLin.
Set Implicit Arguments. Unset Strict Implicit. Unset Printing Implicit Defensive.
Import GRing.Theory.
Local Open Scope ring_scope.
Delimit Scope Z_scope with Z.

Lemma int_strict : exact_elements Int_ops_strict ZA may_abort R_any int_features.
Proof.
  have D (m : Mat Int) n g : mat_of R_any m n n g -> (0 < n)%coq_nat ->
    ret may_abort (row_cofactor_expansion Int_ops_strict m) (fun x => R_any x (\det (mx n n g))) /\
    ret may_abort (col_cofactor_expansion Int_ops_strict m) (fun x => R_any x (\det (mx n n g))).
  { case: n => [|n] Hm Hn; first by move/PeanoNat.Nat.nlt_0_r: Hn.
    exact: (@C49_value Int _ Int_ops_strict may_abort R_any any_zero strict_addA strict_subA strict_sub (@nd_mul _) (@any_eq_iff _) n m g Hm). }
  by apply: Int_strict => m n g Hm Hn; have [] := D m n g Hm Hn.
Qed.
Lemma int_ideal : exact_elements Int_ops_ideal ZA never R_any int_features.
Proof.
  have D (m : Mat Int) n g : mat_of R_any m n n g -> (0 < n)%coq_nat ->
    ret never (row_cofactor_expansion Int_ops_ideal m) (fun x => R_any x (\det (mx n n g))) /\
    ret never (col_cofactor_expansion Int_ops_ideal m) (fun x => R_any x (\det (mx n n g))).
  { case: n => [|n] Hm Hn; first by move/PeanoNat.Nat.nlt_0_r: Hn.
    exact: (@C49_value Int _ Int_ops_ideal never R_any any_zero ideal_addA ideal_subA ideal_sub (@nd_mul _) (@any_eq_iff _) n m g Hm). }
  by apply: Int_ideal => m n g Hm Hn; have [] := D m n g Hm Hn.
Qed.

(** C136. Vectors and matrices of Int without assertions: one call. *)
Theorem C136_call : forall ms st c, holds_value R_any ms st -> Forall int_features (uses c) ->
  means ZA ms c Undefined \/ exists x ms', call_gives ZA ms c x ms' /\ holds_value R_any ms' (fst (nd_perform st c)) /\
    snd (nd_perform st c) = match x with None => Ok tt | Some e => Throw e end.
Proof. exact (nd_step _ int_strict int_ideal). Qed.
Print Assumptions C136_call.
(** Programs, every exception caught *)
Theorem C136_programs : forall p ms st, holds_value R_any ms st -> Forall (fun c => Forall int_features (uses c)) p ->
  goes_astray ZA ms p \/ exists ms' st' l, nd_execute st p = Ok (st', l) /\ gives ZA ms p ms' l /\ holds_value R_any ms' st'.
Proof. exact (nd_programs _ int_strict int_ideal). Qed.
Print Assumptions C136_programs.
(** A program that has caught no std::out_of_range has computed what it means. *)
Theorem C136_clean : forall ms p ms' l, gives ZA ms p ms' l -> ~ In (Some OutOfRange) l -> computes ZA ms p ms' l.
Proof. exact (gives_computes _). Qed.
Print Assumptions C136_clean.
(** Programs that neither add nor subtract nor divide elements always do. *)
Theorem C136_safe : forall p ms st, holds_value R_any ms st -> Forall (fun c => Forall int_features (uses c)) p -> Forall safe p ->
  strays ZA ms p \/ exists ms' st' l, nd_execute st p = Ok (st', l) /\ computes ZA ms p ms' l /\ holds_value R_any ms' st'.
Proof.
  move=> p ms st H F S. case: (C136_programs H F) => [A|[ms' [st' [l [E [Gs V]]]]]]; [left|right].
  - exact: safe_astray _ _ _ S A.
  - exists ms', st', l. split; [exact: E|split; [exact: safe_gives _ _ _ _ _ S Gs|exact: V]].
Qed.
Print Assumptions C136_safe.

(** Nothing but zeros and empty containers *)
Definition blank : objects Int := mkObjects (fun _ => int_const 0) (fun _ => [::]) (fun _ => mkMat 0 0 [::]) (fun _ => false).
(** -2, 10^18 and 7, divided by 10: the second component stops the loop. *)
Definition stops_midway : list lcall :=
  [:: Lit 0 (-20); Lit 1 (10 ^ 18); Lit 2 7; Lit 3 10; VNew 0 3; VSet 0 0 0; VSet 0 1 1; VSet 0 2 2; VDivA 0 3]%Z.
Example C136_stops_midway :
  (match nd_execute blank stops_midway with Ok (st, l) => (map IntSpec.val (ve st 0%N), last None l) | _ => ([::], None) end) = ([:: -2; 0; 7]%Z, Some OutOfRange).
Proof. by vm_compute. Qed.
(** 0 *= 10^9 leaves a zero of two bins, and subtracting that from 5 throws. *)
Definition takes_zero : list lcall := [:: Lit 0 5; Lit 1 (10 ^ 9); Lit 2 0; MNew 0 1 1 2; MMulA 0 1; MNew 1 1 1 0; MAssign Minus 1 0; MAddSub Minus 2 1 0; MGet 3 1 0 0]%Z.
Example C136_takes_zero :
  (match nd_execute blank takes_zero with Ok (st, l) => (IntSpec.val (sc st 3%N), rows (ma st 2%N), l) | _ => (0%Z, 0%N, [::]) end) =
  (5%Z, 0%N, [:: None; None; None; None; None; None; Some OutOfRange; Some OutOfRange; None]).
Proof. by vm_compute. Qed.
(** d *= d[0] scales the later components by the new d[0]; [2; 3] * 2 = [4; 12]. *)
Example C136_own :
  (match nd_execute blank [:: Lit 0 2; Lit 1 3; VNew 0 2; VSet 0 0 0; VSet 0 1 1; VMulOwn 0 0]%Z with Ok (st, l) => map IntSpec.val (ve st 0%N) | _ => [::] end) = [:: 4; 12]%Z.
Proof. by vm_compute. Qed.
(** A caught exception need not leave the vector as it was. *)
Theorem C136_kept_refuted : ~ (forall st c e, snd (nd_perform st c) = Throw e -> ve (fst (nd_perform st c)) 0%N = ve st 0%N).
Proof.
  move=> H.
  have := H (mkObjects (fun _ => int_const 10) (fun _ => [:: int_const (-20); mkInt [:: 0; 0; 1]%Z false; int_const 7]) (fun _ => mkMat 0 0 [::]) (fun _ => false)) (VDivA 0 0) OutOfRange.
  by vm_compute => /(_ erefl).
Qed.
Print Assumptions C136_kept_refuted.
