(** Every public operation of Int that makes or changes an Int, on operands in
    any well-formed representation (leading zero bins and a sign flag on zero
    included, as `*=` and the shifting constructor leave them). *)
From Coq Require Import Ascii ZifyBool.
From Verif Require Import Base IntModel IntSpec IntBasics IntAddSub IntMul IntDiv IntMod IntScale IntPowDefined
  IntPowExact IOModel IOSpec IOProofs PropsInt IntHistory.

(** A call made by a client; variables are numbered -- src/Int.hpp:38-74. *)
Inductive call :=
| Make (d : nat) (k : Z) (s : nat)     (* d = Int(k, s) *)
| Shift (d a s : nat)                  (* d = Int(a, s); a copy when s = 0 *)
| Parse (d : nat) (t : chars)          (* d = Int(t) *)
| Extract (d : nat) (i : istream)      (* i >> d *)
| Set_ (d : nat) (v : Z)               (* d.set_value(v) *)
| Scale (d : nat) (p : Z)              (* d.times_power_ten(p) *)
| Neg (d a : nat)                      (* d = -a *)
| Negate (d : nat)                     (* d.negate() *)
| Binary (o : aop) (d a b : nat)       (* d = a o b *)
| Assign (o : aop) (d b : nat).        (* d o= b; the same object when d = b *)

Definition dest (c : call) : nat :=
  match c with
  | Make d _ _ | Shift d _ _ | Parse d _ | Extract d _ | Set_ d _ | Scale d _ | Neg d _ | Negate d
  | Binary _ d _ _ | Assign _ d _ => d
  end.
(** The modelled library function each call runs. *)
Definition result (st : nat -> Int) (c : call) : res Int :=
  match c with
  | Make _ k s => Int_of_int64 k s
  | Shift _ a s => Ok (Int_shifted (st a) s)
  | Parse _ t => Int_of_string t
  | Extract d i => r <- Int_read i (st d) ;; Ok (snd r)
  | Set_ _ v => set_value v
  | Scale d p => times_power_ten (st d) p
  | Neg _ a => op_neg (st a)
  | Negate d => negate (st d)
  | Binary o _ a b => binary o (st a) (st b)
  | Assign o d b => assign o (st d) (if Nat.eqb d b then None else Some (st b))
  end.
Definition perform (st : nat -> Int) (c : call) : res (nat -> Int) :=
  r <- result st c ;; Ok (upd st (dest c) r).
Fixpoint perform_all (st : nat -> Int) (p : list call) : res (nat -> Int) :=
  match p with
  | [] => Ok st
  | c :: p' => st' <- perform st c ;; perform_all st' p'
  end.

(** Arguments of machine type for which -x overflows are left out, and those with
    which set_value leaves a bin above 10^9 (C23). *)
Definition arguments_ok (c : call) : Prop :=
  match c with
  | Make _ k _ => INT64_MIN < k <= INT64_MAX
  | Set_ _ v => - 10 ^ 9 < v < 10 ^ 9
  | Scale _ p => INT32_MIN < p <= INT32_MAX
  | _ => True
  end.

(** *** The same over the integers *)
(** No halving of b is a power of the radix or its successor. *)
Definition plain_exponent (b : Z) : Prop :=
  0 <= b /\ forall j k, 0 <= j -> 1 <= k -> b / 2 ^ j <> (10 ^ 9) ^ k /\ b / 2 ^ j <> (10 ^ 9) ^ k + 1.
(** a o b; an exponent that is negative or not plain gives some power. *)
Definition zresult (o : aop) (a b v : Z) : Prop :=
  match o with
  | Add => v = a + b
  | Sub => v = a - b
  | Mul => v = a * b
  | Div => b <> 0 /\ v = Z.quot a b
  | Mod => b <> 0 /\ v = a mod b
  | Pow => exists e, 0 <= e <= Z.abs b + 2 /\ (plain_exponent b -> e = b) /\ v = a ^ e
  end.
Definition zvalue (zs : nat -> Z) (c : call) (v : Z) : Prop :=
  match c with
  | Make _ k s => v = k * (10 ^ 9) ^ Z.of_nat s
  | Shift _ a s => v = zs a * (10 ^ 9) ^ Z.of_nat s
  | Parse _ t => int_text t v
  | Extract d i => (good i = true /\ exists p t, rest i = p ++ t /\ int_text p v /\ ends_numeral t) \/
                   (good i = true /\ no_int_prefix (rest i) /\ v = zs d) \/ (good i = false /\ v = zs d)
  | Set_ _ k => v = k
  | Scale d p => v = if 0 <=? p then zs d * 10 ^ p else Z.quot (zs d) (10 ^ (- p))
  | Neg _ a => v = - zs a
  | Negate d => v = - zs d
  | Binary o _ a b => zresult o (zs a) (zs b) v
  | Assign o d b => zresult o (zs d) (zs b) v
  end.
Definition zstep (zs : nat -> Z) (c : call) (zs' : nat -> Z) : Prop :=
  zvalue zs c (zs' (dest c)) /\ forall n, n <> dest c -> zs' n = zs n.
Inductive zsteps : (nat -> Z) -> list call -> (nat -> Z) -> Prop :=
| zs_nil zs zs' : (forall n, zs' n = zs n) -> zsteps zs [] zs'
| zs_cons zs c zs1 p zs' : zstep zs c zs1 -> zsteps zs1 p zs' -> zsteps zs (c :: p) zs'.

(** Calls that may stop at an assertion: all others return or throw. *)
Definition may_assert (c : call) : Prop :=
  match c with
  | Scale _ p => p < 0
  | Binary o _ _ _ | Assign o _ _ => o <> Mul
  | _ => False
  end.
Definition divides_by_zero (zs : nat -> Z) (c : call) : Prop :=
  match c with
  | Binary Div _ _ b | Binary Mod _ _ b | Assign Div _ b | Assign Mod _ b => zs b = 0
  | _ => False
  end.

Definition vals (st : nat -> Int) : nat -> Z := fun n => val (st n).
Definition all_wf (st : nat -> Int) : Prop := forall n, wf (st n).
Definition well_behaved (st : nat -> Int) (c : call) : Prop :=
  match perform st c with
  | Ok st' => all_wf st' /\ zstep (vals st) c (vals st')
  | Throw DivideByZero => divides_by_zero (vals st) c
  | Throw InvalidArgument => exists d t, c = Parse d t /\ forall z, ~ int_text t z
  | Throw _ => False
  | Abort => may_assert c
  | UB | OutOfFuel => False
  end.

(** *** The operators *)
Definition sound (o : aop) (x y : Int) (m : res Int) : Prop :=
  (exists r, m = Ok r /\ wf r /\ zresult o (val x) (val y) (val r)) \/
  ((o = Div \/ o = Mod) /\ val y = 0 /\ m = Throw DivideByZero) \/
  (o <> Mul /\ m = Abort).

Lemma abs_operand z : wf z -> exists a, (if negative z then negate z else Ok z) = Ok a /\ wf a /\ nonneg a /\ val a = Z.abs (val z).
Proof.
  intros Hz. pose proof (aval_nonneg z Hz). destruct (negative z) eqn:N.
  - destruct (negate_nonneg z Hz N) as (r & E & W & N' & V & _). exists r. splits; auto. rewrite V, val_aval, N. lia.
  - exists z. splits; auto. rewrite val_aval, N. lia.
Qed.

Lemma div_sound x y : wf x -> wf y -> sound Div x y (op_div x y).
Proof.
  intros Hx Hy. unfold sound, op_div.
  pose proof (abs_val x Hx) as Ax. pose proof (abs_val y Hy) as Ay. pose proof (aval_nonneg x Hx).
  destruct (divide_gen x y Hx Hy) as [[H0 E]|[(H0 & L & E)|(H0 & L & [[_ E]|[_ (r & E & C & V)]])]].
  - right. left. auto.
  - left. exists (mkInt [0] false). splits; auto; [apply canonical_zero|]. split; auto. cbn.
    symmetry. apply Z.quot_small_iff; lia.
  - right. right. split; [discriminate|auto].
  - left. exists r. splits; auto. split; auto.
Qed.

Lemma mod_sound x y : wf x -> wf y -> sound Mod x y (op_mod x y).
Proof.
  intros Hx Hy. unfold sound, op_mod, modulo.
  destruct (abs_operand x Hx) as (a & Ea & Wa & Na & Va). destruct (abs_operand y Hy) as (b & Eb & Wb & Nb & Vb).
  rewrite Ea, Eb. cbn [bind].
  destruct (div_sound a b Wa Wb) as [(q & Eq & Wq & Nz & Vq)|[(_ & Z0 & E)|[_ E]]].
  2:{ right. left. rewrite E. splits; auto. lia. }
  2:{ right. right. rewrite E. split; [discriminate|auto]. }
  rewrite Eq. cbn [bind].
  destruct (op_mul_gen q b Wq Wb) as (qb & Em & Wm & Vm & _). rewrite Em. cbn [bind].
  pose proof (op_sub_gen a qb Wa Wm) as G.
  match type of G with if ?c then _ else _ => destruct c end.
  { right. right. rewrite G. split; [discriminate|auto]. }
  destruct G as (r & Er & Wr & Vr & _). rewrite Er. cbn [bind].
  rewrite equals_int32_0 by auto. cbn [bind].
  assert (Nzy : val y <> 0) by lia.
  assert (R : val r = Z.abs (val x) mod Z.abs (val y)).
  { rewrite Vr, Vm, Vq, Va, Vb in *. rewrite Z.quot_div_nonneg by lia.
    pose proof (Z.div_mod (Z.abs (val x)) (Z.abs (val y))). lia. }
  pose proof (Z.mod_pos_bound (Z.abs (val x)) (Z.abs (val y)) ltac:(lia)) as Bd.
  pose proof (abs_val r Wr) as Ar.
  pose proof (val_aval x) as Sx. pose proof (val_aval y) as Sy.
  pose proof (aval_nonneg x Hx) as Px. pose proof (aval_nonneg y Hy) as Py.
  (* the result is zero *)
  destruct (Z.eqb_spec (aval r) 0) as [R0|R0].
  { left. exists r. splits; auto. split; auto.
    assert (D : (Z.abs (val x)) mod (Z.abs (val y)) = 0) by lia.
    apply Z.mod_divide in D; [|lia]. symmetry. rewrite R in *.
    assert (val r = 0) by lia. rewrite <- R, H.
    apply Z.mod_divide; auto. apply (proj1 (Z.divide_abs_l _ _)). apply (proj1 (Z.divide_abs_r _ _)). exact D. }
  assert (R1 : val r <> 0) by lia.
  destruct (negative x) eqn:Nx, (negative y) eqn:Ny; cbn [andb negb].
  - destruct (negate_ok r Wr) as (v & -> & Vv & _ & Wv & _). left. exists v. splits; auto. split; auto.
    rewrite Vv, R. rewrite (Z.abs_neq (val x)), (Z.abs_neq (val y)) by lia.
    rewrite Z.mod_opp_opp by auto. lia.
  - pose proof (op_sub_gen y r Hy Wr) as G.
    match type of G with if ?c then _ else _ => destruct c end.
    { right. right. split; [discriminate|auto]. }
    destruct G as (v & Ev & Wv & Vv & _). left. exists v. splits; auto. split; auto.
    rewrite Vv, R. rewrite (Z.abs_neq (val x)), (Z.abs_eq (val y)) in * by lia.
    rewrite <- (Z.opp_involutive (val x)) at 2. rewrite (Z.mod_opp_l_nz (- val x)) by lia. reflexivity.
  - pose proof (addsub_assign_gen false r (Some y) Wr) as G. cbn [rd] in G.
    specialize (G ltac:(intros ? [= <-]; auto)).
    match type of G with if ?c then _ else _ => destruct c end.
    { right. right. split; [discriminate|auto]. }
    destruct G as (v & Ev & Wv & _ & Vv). left. exists v. splits; auto. split; auto.
    rewrite Vv, R. rewrite (Z.abs_eq (val x)), (Z.abs_neq (val y)) in * by lia.
    rewrite <- (Z.opp_involutive (val y)) at 3. rewrite (Z.mod_opp_r_nz (val x) (- val y)) by lia. lia.
  - left. exists r. splits; auto. split; auto. rewrite R, !Z.abs_eq by lia. reflexivity.
Qed.

(** *** Powers: which power is taken depends on the exponent alone *)
Definition powers (x x' : Int) (top : Z) (exact : Prop) (m m' : res Int) : Prop :=
  (exists e r r', 0 <= e <= top /\ (exact -> e = top) /\
     m = Ok r /\ m' = Ok r' /\ wf r /\ wf r' /\ val r = val x ^ e /\ val r' = val x' ^ e) \/
  (m = Abort /\ m' = Abort).

Lemma powers_le x x' t (P : Prop) t' (P' : Prop) m m' : t <= t' -> (P' -> P /\ t = t') -> powers x x' t P m m' -> powers x x' t' P' m m'.
Proof.
  intros L I [(e & r & r' & H & X & R)|H]; [left|right; auto]. exists e, r, r'. splits; try lia; try apply R.
  intros HP. destruct (I HP) as [HP' <-]. auto.
Qed.
Lemma powers_mul x x' t P m m' : wf x -> wf x' -> powers x x' t P m m' ->
  powers x x' (t + 1) P (a <- m ;; op_mul x a) (a <- m' ;; op_mul x' a).
Proof.
  intros Hx Hx' [(e & r & r' & He & X & -> & -> & Wr & Wr' & V & V')|[-> ->]]; [|right; auto]. cbn [bind].
  destruct (op_mul_gen x r Hx Wr) as (p & Ep & Wp & Vp & _). destruct (op_mul_gen x' r' Hx' Wr') as (p' & Ep' & Wp' & Vp' & _).
  left. exists (Z.succ e), p, p'. splits; auto; try lia; try (intros HP; rewrite (X HP); lia); rewrite Z.pow_succ_r by lia; congruence.
Qed.
Lemma powers_square x x' t P m m' : powers x x' t P m m' ->
  powers x x' (2 * t) P (a <- m ;; op_mul a a) (a <- m' ;; op_mul a a).
Proof.
  intros [(e & r & r' & He & X & -> & -> & Wr & Wr' & V & V')|[-> ->]]; [|right; auto]. cbn [bind].
  destruct (op_mul_gen r r Wr Wr) as (p & Ep & Wp & Vp & _). destruct (op_mul_gen r' r' Wr' Wr') as (p' & Ep' & Wp' & Vp' & _).
  left. exists (e + e), p, p'. splits; auto; try lia; try (intros HP; rewrite (X HP); lia); rewrite Z.pow_add_r by lia; congruence.
Qed.
Lemma plain_exponent_no_radix b : plain_exponent b <-> 0 <= b /\ no_radix_power b.
Proof. reflexivity. Qed.

Lemma exp_powers x x' : wf x -> wf x' -> forall fuel y, wf y -> nonneg y ->
  2 * Z.log2 (aval y) + (if Z.odd (aval y) then 1 else 0) + 1 <= Z.of_nat fuel ->
  powers x x' (aval y) (no_radix_power (aval y)) (exponentiate fuel x y) (exponentiate fuel x' y).
Proof.
  intros Hx Hx'. induction fuel as [|f IH]; intros y Hy Hyn Hf.
  { pose proof (Z.log2_nonneg (aval y)). destruct (Z.odd (aval y)); lia. }
  pose proof (aval_nonneg y Hy) as Hy0.
  cbn [exponentiate]. rewrite equals_int32_0 by auto. rewrite !bind_ok.
  destruct (Z.eqb_spec (aval y) 0) as [E0|E0].
  { left. rewrite set_value_ok by (unfold INT32_MIN, INT32_MAX; lia). eexists 0, _, _.
    splits; try reflexivity; try lia; apply one_canonical. }
  destruct (equals_int32 y 1) as [t|e| | |] eqn:E1.
  2-5: exfalso; rewrite (equals_int32_gen y 1) in E1 by (auto; unfold INT32_MIN, INT32_MAX; lia); discriminate E1.
  rewrite !bind_ok. destruct t.
  { left. exists 1, x, x'. splits; auto; try lia; try (rewrite Z.pow_1_r; auto).
    intros N. rewrite equals_one in E1 by auto. injection E1 as E1. lia. }
  rewrite is_odd_spec, !bind_ok by auto.
  rewrite (val_nonneg_aval y Hyn).
  destruct (Z.odd (aval y)) eqn:Eo.
  - destruct (Int_of_int64_ok 1 0) as (one & Ho & Hov & Hoc & Hon & _); [unfold INT64_MIN, INT64_MAX; lia|].
    rewrite Ho, !bind_ok. rewrite pw_0 in Hov.
    pose proof (op_sub_gen y one Hy (canonical_wf _ Hoc)) as Hs.
    destruct (Bool.eqb (negative y) (negative one) && _) eqn:Ec.
    { right. rewrite Hs. auto. }
    destruct Hs as (ym1 & Hs & Hw & Hv & Hz & _ & _). rewrite Hs, !bind_ok.
    assert (Hv' : val ym1 = aval y - 1) by (rewrite Hv, Hov, (val_nonneg_aval y Hyn); lia).
    assert (Hyn' : nonneg ym1).
    { unfold nonneg. destruct (negative ym1) eqn:E; auto.
      pose proof (aval_nonneg _ Hw). rewrite val_aval, E in Hv'.
      assert (val ym1 = 0) by (rewrite val_aval, E; lia). specialize (Hz H0). congruence. }
    rewrite (val_nonneg_aval _ Hyn') in Hv'.
    apply powers_le with (aval ym1 + 1) (no_radix_power (aval ym1)); [lia| |].
    { intros N. split; [|lia]. rewrite Hv'. apply no_radix_dec; auto. }
    apply powers_mul; auto. apply IH; auto.
    rewrite Hv'. destruct (Z.eq_dec (aval y) 1) as [E|E].
    + rewrite E in *. change (Z.log2 (1-1)) with 0. change (Z.odd (1-1)) with false. change (Z.log2 1) with 0 in Hf. lia.
    + destruct (exp_measure_odd (aval y)) as [Hm Ho2]; [lia|auto|]. rewrite Ho2. lia.
  - destruct (divide_by_int_ok y 2 false Hy) as (h & Hh & Hw & Hneg & Hsz & Hv); [unfold INT32_MAX; lia|].
    assert (Ev : aval y = 2 * (aval y / 2)) by (rewrite (Z.div_mod (aval y) 2) at 1 by lia; rewrite Zmod_odd, Eo; lia).
    rewrite Hh, !bind_ok. apply powers_le with (2 * aval h) (no_radix_power (aval h)); [lia| |].
    { intros N. split; [|lia]. rewrite Hv. apply no_radix_half; auto. }
    apply powers_square. apply IH; auto.
    rewrite Hv. pose proof (exp_measure_even (aval y)). destruct (Z.odd (aval y / 2)); lia.
Qed.

Lemma exp_powers_neg x x' y f : wf x -> wf x' -> wf y -> negative y = true -> aval y <> 0 -> Z.odd (aval y) = false ->
  2 * Z.log2 (aval y / 2) + (if Z.odd (aval y / 2) then 1 else 0) + 1 <= Z.of_nat f ->
  powers x x' (aval y) False (exponentiate (S f) x y) (exponentiate (S f) x' y).
Proof.
  intros Hx Hx' Hy Ny Nz Od Hf. cbn [exponentiate]. rewrite equals_int32_0 by auto. rewrite !bind_ok.
  replace (aval y =? 0) with false by lia.
  rewrite (equals_int32_gen y 1) by (auto; unfold INT32_MIN, INT32_MAX; lia). rewrite !bind_ok.
  rewrite Ny. change (Bool.eqb true (1 <? 0) || (1 =? 0)) with false. rewrite andb_false_r.
  rewrite is_odd_spec, !bind_ok by auto.
  rewrite val_aval, Ny, Z.odd_opp, Od.
  destruct (divide_by_int_ok y 2 false Hy) as (h & Hh & Hw & Hneg & Hsz & Hv); [unfold INT32_MAX; lia|].
  rewrite Hh, !bind_ok. apply powers_le with (2 * aval h) (no_radix_power (aval h)); [rewrite Hv; ldiv|contradiction|].
  apply powers_square. apply exp_powers; auto. rewrite Hv. exact Hf.
Qed.

Lemma pow_powers x x' y : wf x -> wf x' -> wf y ->
  exists top, top <= aval y + 2 /\ (0 <= val y -> top = val y) /\
    powers x x' top (plain_exponent (val y)) (op_pow x y) (op_pow x' y).
Proof.
  intros Hx Hx' Hy. unfold op_pow. pose proof (aval_nonneg y Hy) as P.
  pose proof (val_aval y) as Vy.
  destruct (negative y) eqn:Ny.
  2:{ exists (aval y). splits; try lia. apply powers_le with (aval y) (no_radix_power (aval y)); [lia| |].
      - rewrite Vy. intros [_ N]. auto.
      - apply exp_powers; auto. pose proof (exp_fuel_enough y (aval y) Hy). lia. }
  destruct (exp_fuel y) as [|f] eqn:Ef; [unfold exp_fuel in Ef; lia|].
  assert (FF : forall m, 0 <= m <= aval y + 1 -> 2 * Z.log2 m + (if Z.odd m then 1 else 0) + 1 <= Z.of_nat f - 1).
  { intros m Hm. pose proof (exp_fuel_enough y m Hy ltac:(lia)) as G. rewrite Ef in G. lia. }
  destruct (Z.eq_dec (aval y) 0) as [Z0|Z0].
  { exists 0. splits; try lia. cbn [exponentiate]. rewrite equals_int32_0 by auto. rewrite !bind_ok. replace (aval y =? 0) with true by lia.
    left. rewrite set_value_ok by (unfold INT32_MIN, INT32_MAX; lia). eexists 0, _, _.
    splits; try reflexivity; try lia; apply one_canonical. }
  assert (NP : plain_exponent (val y) -> False) by (intros [N _]; lia).
  destruct (Z.odd (aval y)) eqn:Od.
  2:{ exists (aval y). splits; try lia. apply powers_le with (aval y) False; [lia|tauto|]. apply exp_powers_neg; auto.
      pose proof (FF (aval y / 2) ltac:(Z.to_euclidean_division_equations; lia)). lia. }
  exists (aval y + 2). splits; try lia.
  cbn [exponentiate]. rewrite equals_int32_0 by auto. rewrite !bind_ok. replace (aval y =? 0) with false by lia.
  rewrite (equals_int32_gen y 1) by (auto; unfold INT32_MIN, INT32_MAX; lia). rewrite !bind_ok.
  rewrite Ny. change (Bool.eqb true (1 <? 0) || (1 =? 0)) with false. rewrite andb_false_r.
  rewrite is_odd_spec, !bind_ok by auto. replace (Z.odd (val y)) with true by (rewrite Vy, Z.odd_opp; auto).
  destruct (Int_of_int64_ok 1 0) as (one & Ho & Hov & Hoc & Hon & _); [unfold INT64_MIN, INT64_MAX; lia|].
  rewrite Ho, !bind_ok. rewrite pw_0 in Hov.
  pose proof (op_sub_gen y one Hy (canonical_wf _ Hoc)) as Hs.
  destruct (Bool.eqb (negative y) (negative one) && _) eqn:Ec.
  { right. rewrite Hs. auto. }
  destruct Hs as (ym1 & Hs & Hw & Hv & Hz & _ & _). rewrite Hs, !bind_ok.
  rewrite Hov, Vy in Hv.
  assert (N1 : negative ym1 = true).
  { destruct (negative ym1) eqn:E; auto. pose proof (aval_nonneg _ Hw). rewrite val_aval, E in Hv. lia. }
  rewrite val_aval, N1 in Hv. assert (A1 : aval ym1 = aval y + 1) by lia.
  apply powers_le with (aval ym1 + 1) False; [lia|tauto|]. apply powers_mul; auto.
  destruct f as [|f]; [specialize (FF 0 ltac:(lia)); cbn in FF; lia|].
  apply exp_powers_neg; auto; try lia.
  - rewrite A1, Z.add_1_r, Z.odd_succ, <- Z.negb_odd, Od. reflexivity.
  - rewrite A1. pose proof (FF ((aval y + 1) / 2) ltac:(Z.to_euclidean_division_equations; lia)). lia.
Qed.

Lemma binary_sound o x y : wf x -> wf y -> sound o x y (binary o x y).
Proof.
  intros Hx Hy. destruct o; cbn [binary].
  - pose proof (op_add_gen x y Hx Hy) as G. match type of G with if ?c then _ else _ => destruct c end.
    + right. right. split; [discriminate|auto].
    + destruct G as (r & E & W & V & _). left. exists r. splits; auto.
  - pose proof (op_sub_gen x y Hx Hy) as G. match type of G with if ?c then _ else _ => destruct c end.
    + right. right. split; [discriminate|auto].
    + destruct G as (r & E & W & V & _). left. exists r. splits; auto.
  - destruct (op_mul_gen x y Hx Hy) as (r & E & W & V & _). left. exists r. splits; auto.
  - apply div_sound; auto.
  - apply mod_sound; auto.
  - destruct (pow_powers x x y Hx Hx Hy) as (t & Ht & T & [(e & r & _ & He & X & E & _ & W & _ & V & _)|[E _]]).
    + left. exists r. splits; auto. exists e. splits; auto; [lia|rewrite abs_val by auto; lia|].
      intros PE. rewrite (X PE). apply T. apply PE.
    + right. right. split; [discriminate|auto].
Qed.
Lemma assign_sound o x other : wf x -> (forall y, other = Some y -> wf y) -> sound o x (rd x other) (assign o x other).
Proof.
  intros Hx Ho. assert (Hr : wf (rd x other)) by (destruct other; cbn; auto).
  destruct o; cbn [assign].
  - pose proof (addsub_assign_gen false x other Hx Ho) as G. cbv zeta in G. match type of G with if ?c then _ else _ => destruct c end.
    + right. right. split; [discriminate|auto].
    + destruct G as (r & E & W & _ & V). left. exists r. splits; auto.
  - pose proof (addsub_assign_gen true x other Hx Ho) as G. cbv zeta in G. match type of G with if ?c then _ else _ => destruct c end.
    + right. right. split; [discriminate|auto].
    + destruct G as (r & E & W & _ & V). left. exists r. splits; auto.
  - destruct (mul_assign_ok x other Hx Ho) as (r & E & W & V & _). left. exists r. splits; auto.
  - apply (binary_sound Div); auto.
  - apply (binary_sound Mod); auto.
  - apply (binary_sound Pow); auto.
Qed.

(** *** times_power_ten *)
Lemma iter_div10_sound n : forall x, wf x ->
  (exists r, iter_div10 n x = Ok r /\ wf r /\ val r = Z.quot (val x) (10 ^ Z.of_nat n)) \/ iter_div10 n x = Abort.
Proof.
  induction n as [|n IH]; intros x Hx; cbn [iter_div10].
  - left. exists x. splits; auto. cbn. rewrite Z.quot_1_r. reflexivity.
  - destruct ten_ok as (t & -> & Ct & Vt & _). cbn [bind]. unfold div_assign. cbn [rd].
    destruct (div_sound x t Hx ltac:(auto)) as [(r & E & W & _ & V)|[(_ & Z0 & _)|[_ E]]]; [|lia|].
    + unfold op_div in E. rewrite E. cbn [bind]. destruct (IH r W) as [(v & Ev & Wv & Vv)|Ev]; [left|right; auto].
      exists v. splits; auto. rewrite Vv, V, Vt.
      pose proof (Z.pow_pos_nonneg 10 (Z.of_nat n) ltac:(lia) ltac:(lia)).
      rewrite Z.quot_quot by lia. f_equal. rewrite Nat2Z.inj_succ, Z.pow_succ_r by lia. reflexivity.
    + right. unfold op_div in E. rewrite E. reflexivity.
Qed.
Lemma Forall_skipn_ {A} (P : A -> Prop) n (l : list A) : Forall P l -> Forall P (skipn n l).
Proof. revert l. induction n as [|n IH]; intros l H; [exact H|]. destruct H; cbn; auto. Qed.
Lemma skipn_val_wf x q : wf x -> val (mkInt (skipn q (bins x)) (negative x)) = Z.quot (val x) (pw q).
Proof.
  intros [_ Hd]. unfold val. cbn [bins negative]. rewrite bins_val_skipn by auto.
  pose proof (bins_val_nonneg (bins x) Hd). pose proof (pw_pos q).
  destruct (negative x); rewrite ?Z.quot_opp_l, Z.quot_div_nonneg by lia; reflexivity.
Qed.
Lemma scale_sound x p : wf x -> INT32_MIN < p <= INT32_MAX ->
  (exists r, times_power_ten x p = Ok r /\ wf r /\ val r = if 0 <=? p then val x * 10 ^ p else Z.quot (val x) (10 ^ (- p))) \/
  (p < 0 /\ times_power_ten x p = Abort).
Proof.
  intros Hx Hp. destruct (Z.leb_spec 0 p) as [L|L].
  - left. destruct (Z.eq_dec p 0) as [->|N].
    + exists x. splits; auto. cbn. lia.
    + destruct (tpt_pos x p Hx ltac:(lia)) as (r & E & W & V & _). eauto.
  - unfold times_power_ten. replace (p >? 0) with false by lia. replace (p <? 0) with true by lia.
    rewrite i32_ok by (unfold INT32_MIN, INT32_MAX in *; lia). cbn [bind]. unfold BIN_WIDTH.
    set (n := - p). rewrite Z.quot_div_nonneg, Z.rem_mod_nonneg by lia.
    pose proof (Z.mod_pos_bound n 9 ltac:(lia)) as M. pose proof (Z.div_mod n 9 ltac:(lia)) as D.
    assert (Hq : 0 <= n / 9) by (apply Z.div_pos; lia).
    set (q := Z.to_nat (n / 9)).
    assert (Eq : pw q = 10 ^ (9 * (n / 9))).
    { unfold pw, q. rewrite Z2Nat.id by lia. change B with (10 ^ 9). rewrite <- Z.pow_mul_r by lia. reflexivity. }
    assert (Vfin : Z.quot (Z.quot (val x) (pw q)) (10 ^ (n mod 9)) = Z.quot (val x) (10 ^ n)).
    { pose proof (pw_pos q). pose proof (Z.pow_pos_nonneg 10 (n mod 9) ltac:(lia) ltac:(lia)).
      rewrite Z.quot_quot by lia. f_equal. rewrite Eq, <- Z.pow_add_r by lia. f_equal. lia. }
    pose proof (skipn_val_wf x q Hx) as Vs.
    destruct (skipn q (bins x)) as [|b0 l0] eqn:Es.
    + left. exists (mkInt [0] false). splits; [reflexivity|apply canonical_zero|].
      rewrite <- Vfin, <- Vs. unfold val. cbn.
      pose proof (Z.pow_pos_nonneg 10 (n mod 9) ltac:(lia) ltac:(lia)).
      destruct (negative x); cbn; rewrite Z.quot_0_l by lia; reflexivity.
    + assert (Wk : wf (mkInt (b0 :: l0) (negative x))).
      { split; cbn [bins]; [discriminate|]. rewrite <- Es. apply Forall_skipn_. apply Hx. }
      destruct (iter_div10_sound (Z.to_nat (n mod 9)) _ Wk) as [(r & E & W & V)|E]; [left|right; auto].
      exists r. splits; auto. rewrite V, Vs, Z2Nat.id by lia. exact Vfin.
Qed.

(** *** One call *)
Lemma parse_cases t : (exists z x, int_text t z /\ Int_of_string t = Ok x /\ canonical x /\ val x = z) \/
  ((forall z, ~ int_text t z) /\ Int_of_string t = Throw InvalidArgument).
Proof.
  destruct (int_prefix_dec t) as [Hn|(p & u & z & -> & Hp & Hu)].
  - assert (forall z, ~ int_text t z) by (intros z Hz; apply (Hn t [] z); auto; rewrite app_nil_r; auto).
    right. split; auto. apply Int_of_string_bad; auto.
  - destruct u as [|c u].
    + rewrite app_nil_r. left. destruct (Int_of_string_ok p z Hp) as (x & E & C & V). exists z, x. auto.
    + assert (forall z', ~ int_text (p ++ c :: u) z') by (intros z' Hz; apply (int_text_app p (c :: u) z z'); auto; discriminate).
      right. split; auto. apply Int_of_string_bad; auto.
Qed.

Lemma well_behaved_intro st c : all_wf st ->
  match result st c with
  | Ok r => wf r /\ zvalue (vals st) c (val r)
  | Throw DivideByZero => divides_by_zero (vals st) c
  | Throw InvalidArgument => exists d t, c = Parse d t /\ forall z, ~ int_text t z
  | Throw _ => False
  | Abort => may_assert c
  | UB | OutOfFuel => False
  end -> well_behaved st c.
Proof.
  intros Hw H. unfold well_behaved, perform. destruct (result st c) as [r|[]| | |]; cbn [bind]; auto.
  destruct H as [W V]. split.
  - intros n. unfold upd. destruct (Nat.eqb n (dest c)); auto.
  - split.
    + unfold vals at 2. unfold upd. rewrite Nat.eqb_refl. exact V.
    + intros n Hn. unfold vals, upd. apply Nat.eqb_neq in Hn. rewrite Hn. reflexivity.
Qed.

Lemma sound_match st c o x y m : sound o x y m ->
  (forall r, zresult o (val x) (val y) r -> zvalue (vals st) c r) ->
  ((o = Div \/ o = Mod) -> val y = 0 -> divides_by_zero (vals st) c) -> (o <> Mul -> may_assert c) ->
  match m with
  | Ok r => wf r /\ zvalue (vals st) c (val r)
  | Throw DivideByZero => divides_by_zero (vals st) c
  | Throw InvalidArgument => exists d t, c = Parse d t /\ forall z, ~ int_text t z
  | Throw _ => False
  | Abort => may_assert c
  | UB | OutOfFuel => False
  end.
Proof. intros [(r & -> & W & V)|[(O & Z & ->)|[O ->]]] H1 H2 H3; auto. Qed.

Lemma call_well_behaved st c : all_wf st -> arguments_ok c -> well_behaved st c.
Proof.
  intros Hw Ha. apply well_behaved_intro; auto.
  destruct c as [d k s|d a s|d t|d i|d v|d p|d a|d|o d a b|o d b]; cbn [result zvalue divides_by_zero may_assert].
  - destruct (Int_of_int64_ok k s Ha) as (r & -> & V & C & _). split; auto.
  - destruct (Int_shifted_spec (st a) s (Hw a)) as (W & V & _). split; auto.
  - destruct (parse_cases t) as [(z & x & T & -> & C & V)|[N ->]]; [split; auto; rewrite V; exact T|eauto].
  - destruct (good i) eqn:G.
    + destruct (int_prefix_dec (rest i)) as [Hn|(p & u & z & E & Hp & Hu)].
      * rewrite Int_read_fail by auto. cbn. split; [apply Hw|]. right. left. auto.
      * destruct (Int_read_ok i p z u (st d)) as (x & -> & C & V); auto. cbn. split; auto.
        left. split; auto. exists p, u. splits; auto. rewrite V. exact Hp.
    + rewrite Int_read_not_good by auto. cbn. split; [apply Hw|]. right. right. auto.
  - cbn [arguments_ok] in Ha. change (10 ^ 9) with 1000000000 in Ha.
    rewrite set_value_ok by (unfold INT32_MIN, INT32_MAX; lia). split.
    + split; [discriminate|]. constructor; [unfold digit_ok; lia|constructor].
    + unfold val. cbn. destruct (Z.ltb_spec v 0); lia.
  - destruct (scale_sound (st d) p (Hw d) Ha) as [(r & -> & W & V)|[L ->]]; auto.
  - destruct (op_neg_ok (st a) (Hw a)) as (r & -> & V & _ & W & _). auto.
  - destruct (negate_ok (st d) (Hw d)) as (r & -> & V & _ & W & _). auto.
  - apply (sound_match st (Binary o d a b) o (st a) (st b)); auto; [apply binary_sound; auto|].
    intros [->| ->] Z; exact Z.
  - set (ot := if Nat.eqb d b then None else Some (st b)).
    assert (Hot : rd (st d) ot = st b).
    { unfold ot. destruct (Nat.eqb d b) eqn:E; cbn; auto. apply Nat.eqb_eq in E as ->. auto. }
    apply (sound_match st (Assign o d b) o (st d) (st b)); auto.
    + rewrite <- Hot. apply assign_sound; auto. intros y. unfold ot. destruct (Nat.eqb d b); [discriminate|]. intros [= <-]; auto.
    + intros [->| ->] Z; exact Z.
Qed.

(** *** Histories *)
(** p runs over the integers up to a call c for which P holds. *)
Definition reaches (zs : nat -> Z) (p : list call) (P : (nat -> Z) -> call -> Prop) : Prop :=
  exists p1 c p2 zs1, p = p1 ++ c :: p2 /\ zsteps zs p1 zs1 /\ P zs1 c.
Lemma reaches_here zs p (P : (nat -> Z) -> call -> Prop) c : P zs c -> reaches zs (c :: p) P.
Proof. intros H. exists [], c, p, zs. splits; auto. constructor; auto. Qed.
Lemma reaches_later zs c zs1 p P : zstep zs c zs1 -> reaches zs1 p P -> reaches zs (c :: p) P.
Proof. intros H (p1 & c' & p2 & zs2 & -> & S & HP). exists (c :: p1), c', p2, zs2. splits; auto. econstructor; eauto. Qed.

Lemma calls_well_behaved p : forall st, all_wf st -> Forall arguments_ok p ->
  match perform_all st p with
  | Ok st' => all_wf st' /\ zsteps (vals st) p (vals st')
  | Throw DivideByZero => reaches (vals st) p divides_by_zero
  | Throw InvalidArgument => reaches (vals st) p (fun _ c => exists d t, c = Parse d t /\ forall z, ~ int_text t z)
  | Throw _ => False
  | Abort => reaches (vals st) p (fun _ c => may_assert c)
  | UB | OutOfFuel => False
  end.
Proof.
  induction p as [|c p IH]; intros st Hw Ha; cbn [perform_all].
  - split; auto. constructor. auto.
  - inversion Ha; subst. pose proof (call_well_behaved st c Hw H1) as G. unfold well_behaved in G.
    destruct (perform st c) as [st1|[]| | |]; cbn [bind]; auto; try (apply reaches_here; assumption).
    destruct G as [W1 S1]. specialize (IH st1 W1 H2).
    destruct (perform_all st1 p) as [st2|[]| | |]; auto; try (eapply reaches_later; eauto; fail).
    destruct IH as [W2 S2]. split; auto. econstructor; eauto.
Qed.

(** Powers of a base in any representation. *)
Lemma pow_any_base x y : wf x -> canonical y -> 0 <= val y ->
  (exists e r, power_taken 0 (val y) e /\ op_pow x y = Ok r /\ wf r /\ val r = val x ^ e) \/
  (power_stops 0 (val y) /\ op_pow x y = Abort).
Proof.
  intros Hx Cy Py. destruct (canonical_exists 2) as (t & Ct & Vt).
  destruct (pow_powers x t y Hx ltac:(auto) ltac:(auto)) as (top & _ & _ & [(e & r & r' & He & _ & E & E' & W & _ & V & V')|[E E']]).
  - left. destruct (op_pow_exact t y Ct Cy Py) as [(e' & r2 & T & E2 & _ & V2)|[_ E2]]; [|congruence].
    rewrite E2 in E'. injection E' as <-. exists e', r. splits; auto.
    pose proof (power_taken_nonneg 0 _ _ Py T).
    rewrite V. f_equal. rewrite V2, Vt in V'. apply (Z.pow_inj_r 2); lia.
  - right. destruct (op_pow_exact t y Ct Cy Py) as [(e' & r2 & T & E2 & _ & V2)|[S _]]; [congruence|]. auto.
Qed.

Lemma div_zero_any x y : wf x -> wf y -> val y = 0 -> op_div x y = Throw DivideByZero.
Proof. intros Hx Hy H0. destruct (divide_gen x y Hx Hy) as [[_ E]|[(N & _)|(N & _)]]; [exact E|contradiction|contradiction]. Qed.
Lemma mod_zero_any x y : wf x -> wf y -> val y = 0 -> op_mod x y = Throw DivideByZero.
Proof.
  intros Hx Hy H0. unfold op_mod, modulo.
  destruct (abs_operand x Hx) as (a & Ea & Wa & _). destruct (abs_operand y Hy) as (b & Eb & Wb & _ & Vb).
  rewrite Ea, Eb. cbn [bind]. rewrite div_zero_any by (auto; lia). reflexivity.
Qed.
Lemma zero_reported st c : all_wf st -> divides_by_zero (vals st) c -> perform st c = Throw DivideByZero.
Proof.
  intros W D. unfold perform. unfold vals in D.
  destruct c as [| | | | | | | |o d a b|o d b]; try contradiction; destruct o; try contradiction; cbn [divides_by_zero] in D; cbn [result binary assign].
  - rewrite div_zero_any; auto.
  - rewrite mod_zero_any; auto.
  - unfold div_assign. assert (E : rd (st d) (if Nat.eqb d b then None else Some (st b)) = st b).
    { destruct (Nat.eqb_spec d b) as [->|]; auto. }
    rewrite E. change (divide (st d) (st b)) with (op_div (st d) (st b)). rewrite div_zero_any; auto.
  - unfold mod_assign. assert (E : rd (st d) (if Nat.eqb d b then None else Some (st b)) = st b).
    { destruct (Nat.eqb_spec d b) as [->|]; auto. }
    rewrite E. change (modulo (st d) (st b)) with (op_mod (st d) (st b)). rewrite mod_zero_any; auto.
Qed.
