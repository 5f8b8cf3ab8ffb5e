(** rref() and inverse() that divide by 1 and -1 only. *)
From Coq Require Import QArith.
From Verif Require Import Base IntModel IntSpec IntBasics IntDiv IntMod FracProofs ElemModel ElemSpec ElemProofs ElemInst VecModel MatModel MatSpec MatProofs Int32Spec Int32Proofs
  SimSpec SimProofs SimInst.
From mathcomp Require Import all_ssreflect all_algebra zify ssrZ.
From Verif Require Import MatAlg MatCof MatDet MatRrefSpec MatRref MatUnique SimAlg SimIntAlg TriInst UnitTri.
Set Implicit Arguments. Unset Strict Implicit. Unset Printing Implicit Defensive.
Import GRing.Theory.
Local Open Scope ring_scope.
Delimit Scope Z_scope with Z.
Local Notation rationals g := (fun i j => ratZ (g i j)).

Section Units.
Variable ok : Z -> bool.
Local Notation U := (units ok).
Lemma kept_ok z r : kept ok z = Ok r -> r = z /\ ok z.
Proof. rewrite /kept. by case: (ok z) => // [[<-]]. Qed.
Lemma unit_div_ok x y r : unit_div ok x y = Ok r -> Z.abs y = 1%Z /\ r = (x * y)%Z /\ ok (x * y)%Z.
Proof. rewrite /unit_div. case: (Z.eqb_spec (Z.abs y) 1) => // Hy /kept_ok [-> Hk]. by []. Qed.
Lemma unit_cases y : Z.abs y = 1%Z -> y = 1%Z \/ y = (-1)%Z.
Proof. lia. Qed.

(** *** into the field of rationals *)
Definition is_ratZ (z : Z) (a : rat) : Prop := ratZ z = a.
Lemma kept_rat z a : ratZ z = a -> ret may_overflow (kept ok z) (fun r => is_ratZ r a).
Proof. move=> H. rewrite /kept. case: (ok z); [left; by exists z|right; by exists HUB]. Qed.
Lemma units_const k : is_ratZ (of_int U k) (ratZ k). Proof. by []. Qed.
Lemma units_subA : assign_exact may_overflow is_ratZ is_ratZ is_ratZ (subA U) (fun a b => a - b).
Proof.
  have G x y a b : is_ratZ x a -> is_ratZ y b -> ret may_overflow (kept ok (x - y)%Z) (fun r => is_ratZ r (a - b)).
  { move=> Hx Hy. apply: kept_rat. rewrite -[(x - y)%Z]/(x + - y)%Z ratZ_add ratZ_opp. by rewrite Hx Hy. }
  split; [move=> x y a b; exact: G|move=> x a Hx H2; exact: G].
Qed.
Lemma units_mul : binary_exact may_overflow is_ratZ (ElemModel.mul U) *%R.
Proof. move=> x y a b Hx Hy. apply: kept_rat. by rewrite ratZ_mul Hx Hy. Qed.
Lemma units_divA x y a b : is_ratZ x a -> is_ratZ y b -> b <> 0 -> ret may_overflow (divA U x (Some y)) (fun r => is_ratZ r (a / b)).
Proof.
  move=> Hx Hy Nb. rewrite /= /unit_div. case: (Z.eqb_spec (Z.abs y) 1) => [Ay|_]; last by right; exists HUB.
  apply: kept_rat. rewrite ratZ_mul Hx. congr (_ * _). rewrite -Hy. case: (unit_cases Ay) => ->; rewrite /ratZ /=; [by rewrite invr1|by rewrite -[(-1)%:~R]/(-1) invrN invr1].
Qed.
Lemma units_eq x y a b : is_ratZ x a -> is_ratZ y b -> ret may_overflow (ElemModel.eqb U x y) (fun e => e = true <-> a = b).
Proof. move=> <- <-. left. exists (x =? y)%Z. split=> //. split=> [/Z.eqb_eq -> //|/ratZ_inj ->]. exact: Z.eqb_refl. Qed.
Lemma ratZ_table r c g : mat_of is_ratZ (table r c g) r c (rationals g).
Proof. have [H1 [H2 [H3 H]]] := table_of r c g. split=> //. split=> //. split=> // i j Hi Hj. have [x [Ex <-]] := H i j Hi Hj. by exists x. Qed.
Lemma mat_ratZ m r c h : mat_of is_ratZ m r c h -> exists g, mat_of eq m r c g /\ forall i j, (i < r)%coq_nat -> (j < c)%coq_nat -> ratZ (g i j) = h i j.
Proof.
  move=> [H1 [H2 [H3 H]]]. exists (fun i j => match nth_error (data m) (i * c + j)%coq_nat with Some (Some x) => x | _ => Z0 end). split.
  - split=> //. split=> //. split=> // i j Hi Hj. have [x [Ex Hx]] := H i j Hi Hj. exists x. by rewrite Ex.
  - move=> i j Hi Hj. have [x [Ex Hx]] := H i j Hi Hj. by rewrite Ex.
Qed.
Lemma units_rref n c (g : nat -> nat -> Z) r : rref U (table n c g) = Ok r ->
  exists h, mat_of eq r n c h /\ is_rref n c (rationals h) /\ row_equivalent n c (rationals g) (rationals h).
Proof.
  move=> Er. have H := @rref_ok _ _ U may_overflow is_ratZ (units_const 0) units_subA units_mul units_divA units_eq n c _ _ (ratZ_table n c g).
  have [h [Hr [Rh Eh]]] := ret_Ok H Er. have [k [Hk Ek]] := mat_ratZ Hr. exists k. split=> //. exact: rref_ext Ek Rh Eh.
Qed.
Lemma units_inverse n (g : nat -> nat -> Z) r : inverse U (table n n g) = Ok r ->
  exists h, mat_of eq r n n h /\ mx n n h *m mx n n g = 1%:M /\ mx n n g *m mx n n h = 1%:M.
Proof.
  move=> Er. have [Un|Un] := boolP (mx n n (rationals g) \in unitmx).
  - have H := @inverse_ok _ _ U may_overflow is_ratZ (units_const 0) (units_const 1) units_subA units_mul units_divA units_eq n _ _ (ratZ_table n n g) Un.
    have [h [Hh Eh]] := ret_Ok H Er. have [k [Hk Ek]] := mat_ratZ Hh. exists k. split=> //. apply: rationals_inverse.
    have -> : mx n n (rationals k) = mx n n h by apply: mx_ext => i j Hi Hj; apply: Ek; lia. by rewrite Eh mulVmx.
  - have [|H] := @inverse_singular _ _ U may_overflow is_ratZ (units_const 0) (units_const 1) units_subA units_mul units_divA units_eq n _ _ (ratZ_table n n g) Un.
    + by rewrite Er.
    + by have := ret_Ok H Er.
Qed.

(** *** into Int *)
Definition holds_Int (z : Z) (x : Int) : Prop := R_int x z.
Lemma units_to_Int z m r : kept ok z = Ok r -> ret never m (fun x => R_int x z) -> ret never m (holds_Int r).
Proof. by move=> /kept_ok [-> _]. Qed.
Lemma units_Int_ring : ring_sim never holds_Int U Int_ops.
Proof.
  split; cbn [of_int fresh add sub mul neg eqb addA subA units Int_ops].
  - move=> k Hk. apply: Int_const_exact. move: Hk => /= [<-|[<-|[<-|//]]]; lia.
  - by [].
  - move=> x y x' y' Hx Hy r E. exact: units_to_Int E (Int_add_exact _ _ _ _ Hx Hy).
  - move=> x y x' y' Hx Hy r E. exact: units_to_Int E (Int_sub_exact _ _ _ _ Hx Hy).
  - move=> x y x' y' Hx Hy r E. exact: units_to_Int E (Int_mul_exact _ _ _ _ Hx Hy).
  - move=> x x' Hx r E. apply: (units_to_Int E). have [Cx Vx] := Hx. have [d [Ed [V [_ [_ [_ [_ C]]]]]]] := op_neg_ok x' (proj1 Cx). left. exists d. split; first exact: Ed. split; [apply: C; by case: Cx => _ []|by rewrite V Vx].
  - move=> x y x' y' Hx Hy b [<-]. apply: ret_mono (Int_eq_exact _ _ _ _ Hx Hy) _ => e He. case: (Z.eqb_spec x y) => [H|H]; [by symmetry; apply/He|]. by case: e He => // - [He _]; case: H; apply: He.
  - move=> x [y|] x' [y'|] Hx Hy r E //=; [exact: units_to_Int E (proj1 Int_addA_exact _ _ _ _ Hx Hy)|exact: units_to_Int E (proj2 Int_addA_exact _ _ Hx Hx)].
  - move=> x [y|] x' [y'|] Hx Hy r E //=; [exact: units_to_Int E (proj1 Int_subA_exact _ _ _ _ Hx Hy)|exact: units_to_Int E (proj2 Int_subA_exact _ _ Hx Hx)].
Qed.
Lemma units_Int_quot x y x' y' : holds_Int x x' -> holds_Int y y' -> sim never holds_Int (unit_div ok x y) (op_div x' y').
Proof.
  move=> Hx Hy r /unit_div_ok [Ay [-> _]]. apply: ret_mono (Int_div_safe _ _ _ _ Hx Hy _ _) _; [lia|rewrite Ay; apply: div_safe_1; lia|].
  move=> d. suff -> : Z.quot x y = (x * y)%Z by []. case: (unit_cases Ay) => ->; [by rewrite Z.quot_1_r Z.mul_1_r|]. rewrite (Z.quot_opp_r x 1) // Z.quot_1_r. lia.
Qed.
Lemma units_Int_field : div_sim never holds_Int U Int_ops.
Proof.
  split; cbn [div divA units Int_ops].
  - exact: units_Int_quot.
  - move=> x [y|] x' [y'|] Hx Hy //; exact: units_Int_quot.
Qed.
End Units.

(** *** Upper triangular with 1 or -1 on the diagonal *)
Local Notation Z1 := (units (fun _ => true)).
Lemma det_units n (g : nat -> nat -> Z) : unit_upper n 0 g -> mx n n (rationals g) \in unitmx.
Proof.
  move=> Hu. have Hg : upper (fun z => z = Z0) n g.
  { split=> [i j Hij|i Hi]; [have [|H _] := Hu i; [lia|apply: H; lia]|have [|_ H] := Hu i; lia]. }
  have D : Z.abs (zproduct n (fun i => g i i)) = 1%Z.
  { elim: n Hu {Hg} => [//|n IH] Hu. rewrite zproduct_S Z.abs_mul IH; last by move=> i Hi; apply: Hu; lia. have [|_ ->] := Hu n; lia. }
  rewrite unitmxE mx_rationals det_map_mx -(det_upper_Z Hg). case: (unit_cases D) => ->; [by rewrite rmorph1 unitr1|].
  by rewrite /= -[ratZ (-1)]/(-1) unitrN unitr1.
Qed.
Lemma inverse_units n g : unit_upper n 0 g -> exists r, inverse Z1 (table n n g) = Ok r.
Proof.
  move=> Hu. have T := table_of n n g. have UM := det_units Hu. rewrite /inverse. have [-> [-> _]] := mat_of_dims eq _ n n g T. rewrite PeanoNat.Nat.eqb_refl /=.
  have [idm [-> Hid]] := ret_False _ _ (identityMatrix_ok Z1 never eq n 0%Z 1%Z erefl erefl). rewrite /=.
  have [aug [-> Haug]] := ret_False _ _ (augmentedMatrix_ok Z1 never eq _ idm n n n g _ T Hid). rewrite /=.
  have Hu' : unit_upper n 0 (fun i j => if Nat.ltb j n then g i j else if Nat.eqb i (j - n)%coq_nat then 1%Z else 0%Z).
  { move=> i Hi. have [H1 H2] := Hu i Hi. split=> [j Hj|]; [case: (PeanoNat.Nat.ltb_spec j n) => // *; [exact: H1|lia]|case: (PeanoNat.Nat.ltb_spec i n) => //; lia]. }
  have Er := ret_False _ _ (ret_final never _ _ (rref_upper n (n + n)%coq_nat ltac:(lia) aug _ Haug Hu')).
  have Haug' : mat_of is_ratZ aug n (n + n)%coq_nat (fun i j => if Nat.ltb j n then ratZ (g i j) else if Nat.eqb i (j - n)%coq_nat then 1 else 0).
  { move: Haug => [A1 [A2 [A3 A]]]. split=> //. split=> //. split=> // i j Hi Hj. have [x [Ex Vx]] := A i j Hi Hj. exists x. split=> //. rewrite /is_ratZ Vx. by case: (Nat.ltb j n) => //; case: (Nat.eqb _ _). }
  have Hid' : mat_of is_ratZ idm n n (@id_at _).
  { move: Hid => [A1 [A2 [A3 A]]]. split=> //. split=> //. split=> // i j Hi Hj. have [x [Ex Vx]] := A i j Hi Hj. exists x. split=> //. rewrite /is_ratZ Vx /id_at. by case: (Nat.eqb _ _). }
  have X := @inplace_rref_ok _ _ Z1 may_overflow is_ratZ (units_const _ 0) (units_subA _) (units_mul _) (@units_divA _) (@units_eq _) _ _ _ _ Haug'.
  case: Er => r [Er _]. rewrite Er /=. apply ret_final in X. have [h [Hr [Rh Eh]]] := ret_Ok X Er.
  have [P Pu [PL PR]] := blocks Eh.
  have Heq x y a b : is_ratZ x a -> is_ratZ y b -> ret never (ElemModel.eqb Z1 x y) (fun e => e = true <-> a = b).
  { move=> <- <-. left. exists (x =? y)%Z. split=> //. split=> [/Z.eqb_eq -> //|/ratZ_inj ->]. exact: Z.eqb_refl. }
  have [Hyes _] := @inverse_loop _ _ Z1 never is_ratZ Heq _ _ _ _ _ Hr Hid' (dims_new Z1 n n).
  have [|d [Ed _]] := ret_False _ _ (ret_final never _ _ (Hyes _)); last by exists d.
  apply: rref_unit => //. by rewrite PL unitmx_mul Pu.
Qed.
