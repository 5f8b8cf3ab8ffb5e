(** Programs of Frac calls with every exception caught. *)
From Coq Require Import QArith Qfield Qpower.
From Verif Require Import Base IntModel IntSpec IntBasics IntAddSub IntMul IntDiv IntMod IntScale IntPowDefined IntPowExact IOModel IOSpec.
From Verif Require Import FracModel FracSpec FracProofs FracIO FracPow PropsFrac FracHistory ExtSpec ExtProofs CatchModel CatchSpec.
From Coq Require Import ZifyBool.
Local Open Scope Z_scope.

(** *** 0/0 as an operand *)
Definition stays_nan (p : fst_res) : Prop := snd p = Abort \/ exists f, p = (f, Throw DivideByZero) /\ is_nan f.
Lemma zero_okrep x : wf x -> val x = 0 -> okrep x.
Proof. intros W V. split; auto. intros H. exfalso. apply H. rewrite <- abs_val by auto. lia. Qed.
Lemma normalize_nan t b : wf t -> wf b -> val t = 0 -> val b = 0 -> stays_nan (normalize (mkFrac t b)).
Proof.
  intros Wt Wb Vt Vb. pose proof (normalize_ends t b (zero_okrep t Wt Vt) (zero_okrep b Wb Vb)) as H.
  destruct H as [(N & _)|[(_ & _ & f & E & H)|[(_ & N & _)|(_ & N & _)]]]; try contradiction. right. eauto.
Qed.
Lemma is_x_wf f v : is_x f v -> wf (top f) /\ wf (bot f).
Proof.
  destruct v as [e|]; cbn.
  - intros H. apply is_ext_parts in H as (C1 & C2 & _). auto.
  - intros (W1 & W2 & _). auto.
Qed.
Lemma op_add_wf a b : wf a -> wf b -> op_add a b = Abort \/ exists r, op_add a b = Ok r /\ wf r /\ val r = val a + val b.
Proof. intros Wa Wb. pose proof (op_add_gen a b Wa Wb) as G. destruct (_ && _); [left; auto|right]. destruct G as (r & E & W & V & _). eauto. Qed.
Lemma op_sub_wf a b : wf a -> wf b -> op_sub a b = Abort \/ exists r, op_sub a b = Ok r /\ wf r /\ val r = val a - val b.
Proof. intros Wa Wb. pose proof (op_sub_gen a b Wa Wb) as G. destruct (_ && _); [left; auto|right]. destruct G as (r & E & W & V & _). eauto. Qed.
Ltac mulg := match goal with |- context [op_mul ?x ?y] =>
  let r := fresh "r" in let E := fresh "E" in let W := fresh "W" in let V := fresh "V" in
  destruct (op_mul_gen x y) as (r & E & W & V & _); auto; rewrite E; cbn [bind] end.
Section Nan.
Variables (x : Frac) (y : option Frac) (a : Int).
Hypotheses (Wx : wf (top x) /\ wf (bot x)) (Wy : forall g, y = Some g -> wf (top g) /\ wf (bot g)) (Wa : wf a).
Let g := rd x y.
Lemma Wg : wf (top g) /\ wf (bot g).
Proof. unfold g. destruct y; cbn; auto. Qed.
Lemma bot_zero t : (val (bot x) = 0 \/ val (bot g) = 0) ->
  exists r, mul_assign (bot (mkFrac t (bot x))) (bot_of y) = Ok r /\ wf r /\ val r = 0.
Proof.
  intros H. cbn [bot]. destruct (mul_assign_ok (bot x) (bot_of y)) as (r & E & W & V & _); [apply Wx| |].
  { intros z. destruct y; cbn; [|discriminate]. intros [= <-]. apply (Wy f eq_refl). }
  assert (R : rd (bot x) (bot_of y) = bot g) by (unfold g; destruct y; reflexivity). rewrite R in V.
  exists r. splits; auto. nia.
Qed.
Hypothesis N : is_nan x \/ is_nan g.
Lemma nan_zeros : val (top x) = 0 /\ val (bot x) = 0 \/ val (top g) = 0 /\ val (bot g) = 0.
Proof. destruct N as [(_ & _ & H1 & H2)|(_ & _ & H1 & H2)]; auto. Qed.
Lemma F_add_nan : stays_nan (F_add_assign x y).
Proof.
  unfold F_add_assign, F_addsub_assign. fold g. destruct Wg as [W1 W2]. destruct Wx as [W3 W4]. pose proof nan_zeros as Z0.
  repeat mulg. destruct (op_add_wf r r0) as [E'|(s & E' & Ws & Vs)]; auto; rewrite E'; [left; reflexivity|]. cbn [set_top fthen].
  destruct (bot_zero s ltac:(tauto)) as (b & Eb & Wb & Vb). rewrite Eb. cbn [set_bot fthen top]. apply normalize_nan; auto. nia.
Qed.
Lemma F_sub_nan : stays_nan (F_sub_assign x y).
Proof.
  unfold F_sub_assign, F_addsub_assign. fold g. destruct Wg as [W1 W2]. destruct Wx as [W3 W4]. pose proof nan_zeros as Z0.
  repeat mulg. destruct (op_sub_wf r r0) as [E'|(s & E' & Ws & Vs)]; auto; rewrite E'; [left; reflexivity|]. cbn [set_top fthen].
  destruct (bot_zero s ltac:(tauto)) as (b & Eb & Wb & Vb). rewrite Eb. cbn [set_bot fthen top]. apply normalize_nan; auto. nia.
Qed.
Lemma F_mul_nan : stays_nan (F_mul_assign x y).
Proof.
  unfold F_mul_assign. destruct Wg as [W1 W2]. destruct Wx as [W3 W4]. pose proof nan_zeros as Z0.
  destruct (mul_assign_ok (top x) (top_of y)) as (r & E & W & V & _); auto.
  { intros z. destruct y; cbn; [|discriminate]. intros [= <-]. apply (Wy f eq_refl). }
  assert (R : rd (top x) (top_of y) = top g) by (unfold g; destruct y; reflexivity). rewrite R in V.
  rewrite E. cbn [set_top fthen]. destruct (bot_zero r ltac:(tauto)) as (b & Eb & Wb & Vb). rewrite Eb. cbn [set_bot fthen top]. apply normalize_nan; auto. nia.
Qed.
Lemma F_div_nan : stays_nan (F_div_assign x y).
Proof.
  unfold F_div_assign. fold g. destruct Wg as [W1 W2]. destruct Wx as [W3 W4]. pose proof nan_zeros as Z0.
  destruct (mul_assign_ok (top x) (Some (bot g))) as (r & E & W & V & _); auto. { intros z [= <-]. auto. }
  rewrite E. cbn [set_top fthen bot].
  destruct (mul_assign_ok (bot x) (Some (top g))) as (b & Eb & Wb & Vb & _); auto. { intros z [= <-]. auto. }
  rewrite Eb. cbn [set_bot fthen top rd] in *. apply normalize_nan; auto; nia.
Qed.
End Nan.
Section NanInt.
Variables (x : Frac) (a : Int).
Hypotheses (N : is_nan x) (Wa : wf a).
Lemma addsub_wf s u v : wf u -> wf v -> addsub_assign 3 s u (Some v) = Abort \/
  exists r, addsub_assign 3 s u (Some v) = Ok r /\ wf r /\ val r = if s : bool then val u - val v else val u + val v.
Proof.
  intros Wu Wv. pose proof (addsub_assign_gen s u (Some v) Wu ltac:(intros z [= <-]; auto)) as G. cbn [rd] in G.
  cbv zeta in G. destruct (_ && _); [left; auto|right]. destruct G as (r & E & W & _ & V). eauto.
Qed.
Lemma FI_asg_nan o : stays_nan (FIasg o x a).
Proof.
  destruct N as (W1 & W2 & V1 & V2). destruct o; cbn [FIasg].
  - unfold FI_add_assign. mulg. unfold add_assign. destruct (addsub_wf false (top x) r) as [E'|(s & E' & Ws & Vs)]; auto; rewrite E'; [left; reflexivity|].
    cbn [set_top fthen]. apply normalize_nan; auto. nia.
  - unfold FI_sub_assign. mulg. unfold sub_assign. destruct (addsub_wf true (top x) r) as [E'|(s & E' & Ws & Vs)]; auto; rewrite E'; [left; reflexivity|].
    cbn [set_top fthen]. apply normalize_nan; auto. nia.
  - unfold FI_mul_assign. destruct (mul_assign_ok (top x) (Some a)) as (r & E & W & V & _); auto. { intros z [= <-]. auto. }
    rewrite E. cbn [set_top fthen rd] in *. apply normalize_nan; auto. nia.
  - unfold FI_div_assign. destruct (mul_assign_ok (bot x) (Some a)) as (r & E & W & V & _); auto. { intros z [= <-]. auto. }
    rewrite E. cbn [set_bot fthen rd] in *. apply normalize_nan; auto. nia.
Qed.
End NanInt.
(** *** New fractions from 0/0 *)
Definition no_new (m : res Frac) : Prop := m = Abort \/ m = Throw DivideByZero.
Lemma make_zero t b : wf b -> val b = 0 -> Frac_make t b = Throw DivideByZero.
Proof. intros W V. unfold Frac_make. rewrite equals_int32_0 by auto. cbn [bind]. replace (aval b =? 0) with true; auto. symmetry. rewrite <- abs_val by auto. lia. Qed.
Lemma Fbin_nan o x y : wf (top x) /\ wf (bot x) -> wf (top y) /\ wf (bot y) -> is_nan x \/ is_nan y -> no_new (Fbin o x y).
Proof.
  intros [W1 W2] [W3 W4] N. assert (Z0 : val (top x) = 0 /\ val (bot x) = 0 \/ val (top y) = 0 /\ val (bot y) = 0).
  { destruct N as [(_ & _ & H1 & H2)|(_ & _ & H1 & H2)]; auto. }
  destruct o; cbn [Fbin]; unfold F_add, F_sub, F_mul, F_div.
  - mulg. mulg. destruct (op_add_wf r r0) as [E'|(s & E' & Ws & Vs)]; auto; rewrite E'; [left; reflexivity|]. cbn [bind]. mulg. right. apply make_zero; auto. nia.
  - mulg. mulg. destruct (op_sub_wf r r0) as [E'|(s & E' & Ws & Vs)]; auto; rewrite E'; [left; reflexivity|]. cbn [bind]. mulg. right. apply make_zero; auto. nia.
  - mulg. mulg. right. apply make_zero; auto. nia.
  - mulg. mulg. right. apply make_zero; auto. nia.
Qed.
Lemma IFbin_nan o a x : wf a -> is_nan x -> no_new (IFbin o a x).
Proof.
  intros Wa (W1 & W2 & V1 & V2). destruct o; cbn [IFbin]; unfold IF_add, IF_sub, IF_mul, IF_div.
  - mulg. destruct (op_add_wf r (top x)) as [E'|(s & E' & Ws & Vs)]; auto; rewrite E'; [left; reflexivity|]. cbn [bind]. right. apply make_zero; auto.
  - mulg. destruct (op_sub_wf r (top x)) as [E'|(s & E' & Ws & Vs)]; auto; rewrite E'; [left; reflexivity|]. cbn [bind]. right. apply make_zero; auto.
  - mulg. right. apply make_zero; auto.
  - mulg. right. apply make_zero; auto.
Qed.
Lemma FIbin_nan o x a : wf a -> is_nan x -> no_new (FIbin o x a).
Proof.
  intros Wa (W1 & W2 & V1 & V2). destruct o; cbn [FIbin]; unfold FI_add, FI_sub, FI_mul, FI_div.
  - mulg. destruct (op_add_wf (top x) r) as [E'|(s & E' & Ws & Vs)]; auto; rewrite E'; [left; reflexivity|]. cbn [bind]. right. apply make_zero; auto.
  - mulg. destruct (op_sub_wf (top x) r) as [E'|(s & E' & Ws & Vs)]; auto; rewrite E'; [left; reflexivity|]. cbn [bind]. right. apply make_zero; auto.
  - mulg. right. apply make_zero; auto.
  - mulg. right. apply make_zero; auto. nia.
Qed.
Lemma reciprocal_nan x : is_nan x -> reciprocal x = Throw DivideByZero.
Proof. intros (W1 & W2 & V1 & V2). unfold reciprocal. apply make_zero; auto. Qed.

(** *** Powers of zeros in any form *)
Lemma exp_sim x z : wf x -> wf z -> val x = val z -> forall f y,
  match exponentiate f x y, exponentiate f z y with
  | Ok r, Ok s => wf r /\ wf s /\ val r = val s
  | Abort, Abort | UB, UB | OutOfFuel, OutOfFuel => True
  | Throw e, Throw e' => e = e'
  | _, _ => False
  end.
Proof.
  intros Wx Wz V. induction f as [|f IH]; intros y; cbn [exponentiate]; [exact I|].
  destruct (equals_int32 y 0) as [[|]|e| | |]; cbn [bind]; auto.
  { destruct (set_value 1) as [r|e| | |] eqn:E; auto. rewrite set_value_ok in E by (unfold INT32_MIN, INT32_MAX; lia). injection E as <-. splits; auto; apply one_canonical. }
  destruct (equals_int32 y 1) as [[|]|e| | |]; cbn [bind]; auto.
  destruct (is_odd y) as [[|]|e| | |]; cbn [bind]; auto.
  - destruct (Int_of_int64 1 0) as [one|e| | |]; cbn [bind]; auto.
    destruct (op_sub y one) as [m|e| | |]; cbn [bind]; auto. specialize (IH m).
    destruct (exponentiate f x m) as [r|e| | |], (exponentiate f z m) as [s|e'| | |]; cbn [bind]; try contradiction; auto.
    destruct IH as (Wr & Ws & Vr). destruct (op_mul_gen x r Wx Wr) as (p & Ep & Wp & Vp & _). destruct (op_mul_gen z s Wz Ws) as (q & Eq & Wq & Vq & _).
    rewrite Ep, Eq. splits; auto. nia.
  - destruct (divide_by_int y 2 false) as [h|e| | |]; cbn [bind]; auto. specialize (IH h).
    destruct (exponentiate f x h) as [r|e| | |], (exponentiate f z h) as [s|e'| | |]; cbn [bind]; try contradiction; auto.
    destruct IH as (Wr & Ws & Vr). destruct (op_mul_gen r r Wr Wr) as (p & Ep & Wp & Vp & _). destruct (op_mul_gen s s Ws Ws) as (q & Eq & Wq & Vq & _).
    rewrite Ep, Eq. splits; auto. nia.
Qed.
Lemma pow_zero x n : wf x -> val x = 0 -> canonical n -> 0 <= val n -> exact_exponent (val n) ->
  exists r, op_pow x n = Ok r /\ wf r /\ val r = (if val n =? 0 then 1 else 0) /\ (val n = 0 -> canonical r).
Proof.
  intros W V Cn P G. assert (C0 : canonical (mkInt [0] false)) by (apply canonicalb_spec; reflexivity).
  destruct (op_pow_right (mkInt [0] false) n C0 Cn P G) as (s & Es & Cs & Vs).
  pose proof (exp_sim x (mkInt [0] false) W ltac:(auto) V (exp_fuel n) n) as H. unfold op_pow in *. rewrite Es in H.
  destruct (exponentiate (exp_fuel n) x n) as [r|e| | |] eqn:Er; try contradiction. destruct H as (Wr & _ & Vr).
  exists r. rewrite Vs in Vr. change (val (mkInt [0] false)) with 0 in Vr. splits; auto.
  - rewrite Vr. destruct (Z.eqb_spec (val n) 0) as [->|N]; [reflexivity|]. apply Z.pow_0_l. lia.
  - intros E0. destruct (exp_fuel n) as [|k]; [discriminate|]. cbn [exponentiate] in Er. rewrite equals_int32_0 in Er by auto. cbn [bind] in Er.
    replace (aval n =? 0) with true in Er by (rewrite <- abs_val by auto; lia). rewrite set_value_ok in Er by (unfold INT32_MIN, INT32_MAX; lia). injection Er as <-. apply one_canonical.
Qed.

(** *** Every call, on any of the values *)
Lemma stays_leaves p : stays_nan p -> leaves_ext p None.
Proof. unfold leaves_ext. intros [->|(f & -> & H)]; cbn [fst snd]; auto. Qed.
Lemma no_new_returns m : no_new m -> returns_ext m None.
Proof. unfold returns_ext. intros [->| ->]; auto. split; auto. discriminate. Qed.
Lemma Fasg_x o x y vx vy : is_x x vx -> is_x (rd x y) vy -> leaves_ext (Fasg o x y) (x_op o vx vy).
Proof.
  intros Hx Hy. destruct vx as [ex|], vy as [ey|].
  { destruct o; cbn [Fasg x_op both]; [apply F_add_ext|apply F_sub_ext|apply F_mul_ext|apply F_div_ext]; auto. }
  all: match goal with |- context [x_op ?w ?u ?v] => replace (x_op w u v) with (@None ext) by (destruct w; reflexivity) end.
  all: apply stays_leaves.
  all: assert (N : is_nan x \/ is_nan (rd x y)) by (auto).
  all: assert (Wy : forall g, y = Some g -> wf (top g) /\ wf (bot g)) by (intros g ->; eapply is_x_wf; exact Hy).
  all: destruct o; cbn [Fasg]; [apply F_add_nan|apply F_sub_nan|apply F_mul_nan|apply F_div_nan]; auto; eapply is_x_wf; exact Hx.
Qed.
Lemma FIasg_x o x a vx : is_x x vx -> canonical a -> leaves_ext (FIasg o x a) (x_op o vx (int_x a)).
Proof.
  intros Hx Ca. destruct vx as [ex|].
  - destruct o; cbn [FIasg x_op both int_x]; [apply FI_add_ext|apply FI_sub_ext|apply FI_mul_ext|apply FI_div_ext]; auto.
  - replace (x_op o None (int_x a)) with (@None ext) by (destruct o; reflexivity). apply stays_leaves, FI_asg_nan; auto.
Qed.
Lemma Fbin_x o x y vx vy : is_x x vx -> is_x y vy -> returns_ext (Fbin o x y) (x_op o vx vy).
Proof.
  intros Hx Hy. destruct vx as [ex|], vy as [ey|].
  { destruct o; cbn [Fbin x_op both]; [apply F_add_bin|apply F_sub_bin|apply F_mul_bin|apply F_div_bin]; auto. }
  all: match goal with |- context [x_op ?w ?u ?v] => replace (x_op w u v) with (@None ext) by (destruct w; reflexivity) end.
  all: apply no_new_returns, Fbin_nan; auto; eapply is_x_wf; eauto.
Qed.
Lemma ext_to_parts f e : is_ext f e -> parts f.
Proof. intros H. apply is_ext_parts in H as (C1 & C2 & _). split; auto. Qed.
Lemma IFbin_x o a x vx : canonical a -> is_x x vx -> returns_ext (IFbin o a x) (x_op o (int_x a) vx).
Proof.
  intros Ca Hx. destruct vx as [ex|].
  2:{ replace (x_op o (int_x a) None) with (@None ext) by (destruct o; reflexivity). apply no_new_returns, IFbin_nan; auto. }
  cbn [is_x] in Hx. pose proof (ext_to_parts _ _ Hx) as Px. pose proof (int_zero a) as Za. pose proof (int_neg a) as Sa.
  destruct o; cbn [IFbin x_op both int_x]; (eapply makes_ext; [(apply IF_add_makes || apply IF_sub_makes || apply IF_mul_makes || apply IF_div_makes); auto; try exact (top x)|..]);
    (destruct ex as [p|n]; [pose proof (fin_parts _ _ Hx) as (Bx & Vx & Zx & Sx)|pose proof (inf_parts _ _ Hx) as (Bx & Tx)]; intros); cbn [e_add e_opp e_mul e_div]; try lia; try discriminate; rewrite ?Bx, ?Tx in *;
    try (exfalso; repeat match goal with b : bool |- _ => destruct b end; lia).
  - eexists. split; [reflexivity|]. rewrite <- Vx, <- ratio_r_1. unfold Fval. rewrite <- ratio_add by lia. apply ratio_eq; lia.
  - eexists. split; [reflexivity|]. rewrite <- Vx, <- ratio_r_1. transitivity (ratio (val a) 1 - Fval x)%Q; [|ring]. unfold Fval. rewrite <- ratio_sub by lia. apply ratio_eq; lia.
  - eexists. split; [reflexivity|]. rewrite <- Vx, <- ratio_r_1. unfold Fval. rewrite <- ratio_mul by lia. apply ratio_eq; lia.
  - destruct (zero_Q (inject_Z (val a))); discriminate.
  - destruct (zero_Q p); [exfalso; tauto|]. eexists. split; [reflexivity|]. rewrite <- Vx, <- ratio_r_1. unfold Fval. rewrite <- ratio_div by lia. apply ratio_eq; lia.
  - eexists. split; [reflexivity|]. rewrite Z.mul_0_r. apply ratio_0; auto.
  - replace (zero_Q p) with true by (symmetry; tauto). destruct (zero_Q (inject_Z (val a))); discriminate.
Qed.
Lemma FIbin_x o x a vx : is_x x vx -> canonical a -> returns_ext (FIbin o x a) (x_op o vx (int_x a)).
Proof.
  intros Hx Ca. destruct vx as [ex|].
  2:{ replace (x_op o None (int_x a)) with (@None ext) by (destruct o; reflexivity). apply no_new_returns, FIbin_nan; auto. }
  cbn [is_x] in Hx. pose proof (ext_to_parts _ _ Hx) as Px. pose proof (int_zero a) as Za. pose proof (int_neg a) as Sa.
  destruct o; cbn [FIbin x_op both int_x]; (eapply makes_ext; [(apply FI_add_makes || apply FI_sub_makes || apply FI_mul_makes || apply FI_div_makes); auto; try exact (top x)|..]);
    (destruct ex as [p|n]; [pose proof (fin_parts _ _ Hx) as (Bx & Vx & Zx & Sx)|pose proof (inf_parts _ _ Hx) as (Bx & Tx)]; intros); cbn [e_add e_opp e_mul e_div]; try lia; try discriminate; rewrite ?Bx, ?Tx in *;
    try (exfalso; repeat match goal with b : bool |- _ => destruct b end; lia).
  - eexists. split; [reflexivity|]. rewrite <- Vx, <- ratio_r_1. unfold Fval. rewrite <- ratio_add by lia. apply ratio_eq; lia.
  - eexists. split; [reflexivity|]. rewrite <- Vx, <- ratio_r_1. transitivity (Fval x - ratio (val a) 1)%Q; [|ring]. unfold Fval. rewrite <- ratio_sub by lia. apply ratio_eq; lia.
  - eexists. split; [reflexivity|]. rewrite <- Vx, <- ratio_r_1. unfold Fval. rewrite <- ratio_mul by lia. apply ratio_eq; lia.
  - destruct (zero_Q (inject_Z (val a))); discriminate.
  - destruct (zero_Q (inject_Z (val a))); [exfalso; nia|]. eexists. split; [reflexivity|]. rewrite <- Vx, <- ratio_r_1. unfold Fval. rewrite <- ratio_div by nia. apply ratio_eq; nia.
  - replace (zero_Q (inject_Z (val a))) with true by (symmetry; apply Za; nia). destruct (zero_Q p); discriminate.
Qed.
Lemma make_x a b : canonical a -> canonical b -> returns_ext (Frac_make a b) (x_op FDiv (int_x a) (int_x b)).
Proof.
  intros Ca Cb. pose proof (int_zero b) as Zb. cbn [x_op both int_x e_div].
  eapply makes_ext; [apply Frac_make_makes; auto|..]; intros H.
  - destruct (zero_Q (inject_Z (val b))); [exfalso; tauto|]. eexists. split; [reflexivity|]. rewrite <- !ratio_r_1, <- ratio_div by lia. apply ratio_eq; lia.
  - replace (zero_Q (inject_Z (val b))) with true by (symmetry; tauto). intros q. destruct (zero_Q (inject_Z (val a))); discriminate.
Qed.
Lemma recip_x x vx : is_x x vx -> returns_ext (reciprocal x) (x_op FDiv (Some (Fin 1)) vx).
Proof.
  intros Hx. destruct vx as [ex|]; cbn [x_op both].
  - apply (reciprocal_ext x x ex). exact Hx.
  - apply no_new_returns. right. apply reciprocal_nan, Hx.
Qed.
(** *** Powers *)
Lemma one_pow_sign s n : 0 <= n -> (if s : bool then -1 else 1) ^ n = (if s && Z.odd n then -1 else 1).
Proof.
  intros H. destruct s; cbn [andb]; [|apply Z.pow_1_l; auto].
  destruct (Z.odd n) eqn:O.
  - apply Z.odd_spec in O as [k ->]. rewrite Z.pow_add_r, Z.pow_mul_r by lia. change ((-1) ^ 2) with 1. rewrite Z.pow_1_l by lia. reflexivity.
  - rewrite <- Z.negb_even in O. apply Bool.negb_false_iff, Z.even_spec in O as [k ->].
    rewrite Z.pow_mul_r by lia. change ((-1) ^ 2) with 1. apply Z.pow_1_l. lia.
Qed.
Lemma abs_exact n : canonical n -> exists e, (if is_negative n then op_neg n else Ok n) = Ok e /\ canonical e /\ val e = Z.abs (val n).
Proof. intros C. destruct (abs_exponent n C) as (e & H). exists e. exact H. Qed.
Lemma zero_Q_cond p f : is_ext f (Fin p) -> (zero_Q p = true <-> (p == 0)%Q).
Proof. intros _. apply Qeq_bool_iff. Qed.
Lemma pow_x x n vx : is_x x vx -> canonical n -> exact_exponent (Z.abs (val n)) -> returns_ext (F_pow x n) (x_pow vx (val n)).
Proof.
  intros Hx Cn G. destruct vx as [ex|].
  - cbn [is_x] in Hx. pose proof (ext_to_parts _ _ Hx) as Px. pose proof (F_pow_makes x n Px Cn G) as M. unfold x_pow.
    eapply makes_ext; [exact M|..].
    + intros Nb. destruct (Z.eqb_spec (val n) 0) as [E0|E0].
      * rewrite E0 in *. eexists. split; [reflexivity|]. cbn. reflexivity.
      * destruct ex as [p|s].
        -- pose proof (fin_parts _ _ Hx) as (Bx & Vx & Zx & Sx). destruct (Z.ltb_spec (val n) 0) as [L|L].
           ++ rewrite Bool.andb_true_r. assert (val (top x) <> 0). { intros E. rewrite E, Z.pow_0_l in Nb by lia. auto. }
              destruct (zero_Q p); [exfalso; tauto|]. eexists. split; [reflexivity|].
              rewrite ratio_inv by (apply Z.pow_nonzero; lia). rewrite ratio_pow by lia. rewrite Qpower_opp, Qinv_involutive. fold (Fval x). rewrite Vx. reflexivity.
           ++ rewrite Bool.andb_false_r. eexists. split; [reflexivity|]. rewrite ratio_pow by lia. fold (Fval x). rewrite Vx. reflexivity.
        -- pose proof (inf_parts _ _ Hx) as (Bx & Tx). rewrite Bx in *. destruct (Z.ltb_spec (val n) 0) as [L|L].
           ++ eexists. split; [reflexivity|]. rewrite Z.pow_0_l by lia. apply ratio_0; auto.
           ++ exfalso. rewrite Z.pow_0_l in Nb by lia. auto.
    + intros Zb q. destruct (Z.eqb_spec (val n) 0) as [E0|E0]; [exfalso; rewrite E0 in Zb; cbn in Zb; lia|].
      destruct ex as [p|s].
      * pose proof (fin_parts _ _ Hx) as (Bx & Vx & Zx & Sx). destruct (Z.ltb_spec (val n) 0) as [L|L].
        -- apply Z.pow_eq_0 in Zb; [|lia]. replace (zero_Q p) with true by (symmetry; tauto). discriminate.
        -- apply Z.pow_eq_0 in Zb; lia.
      * pose proof (inf_parts _ _ Hx) as (Bx & Tx). destruct (Z.ltb_spec (val n) 0) as [L|L]; [|discriminate].
        apply Z.pow_eq_0 in Zb; [|lia]. destruct s; lia.
  - destruct Hx as (W1 & W2 & V1 & V2). unfold x_pow, F_pow. destruct (abs_exact n Cn) as (e & Ee & Ce & Ve).
    destruct (pow_zero (top x) e) as (t & Et & Wt & Vt & Ct); auto; [lia|rewrite Ve; auto|].
    destruct (pow_zero (bot x) e) as (b & Eb & Wb & Vb & Cb); auto; [lia|rewrite Ve; auto|].
    assert (E : (exists u v, F_pow x n = Frac_make u v /\ wf u /\ wf v /\ val u = (if val e =? 0 then 1 else 0) /\ val v = (if val e =? 0 then 1 else 0) /\ (val e = 0 -> canonical u /\ canonical v))).
    { unfold F_pow. destruct (is_negative n).
      - rewrite Ee. cbn [bind]. rewrite Eb. cbn [bind]. rewrite Et. cbn [bind]. exists b, t. splits; auto.
      - injection Ee as ->. rewrite Et. cbn [bind]. rewrite Eb. cbn [bind]. exists t, b. splits; auto. }
    fold (F_pow x n). destruct E as (u & v & -> & Wu & Wv & Vu & Vv & C). rewrite Ve in *.
    destruct (Z.eqb_spec (val n) 0) as [E0|E0].
    + rewrite E0 in *. cbn in Vu, Vv. destruct C as [Cu Cv]; auto. eapply makes_ext; [apply Frac_make_makes; auto|..]; intros H; [|exfalso; lia].
      eexists. split; [reflexivity|]. rewrite Vu, Vv. reflexivity.
    + replace (Z.abs (val n) =? 0) with false in * by lia. rewrite make_zero by auto. split; auto. discriminate.
Qed.
Lemma pow_assign_x x n vx : is_x x vx -> canonical n -> exact_exponent (Z.abs (val n)) -> leaves_ext (F_pow_assign x n) (x_pow vx (Z.abs (val n))).
Proof.
  intros Hx Cn G. destruct (abs_exact n Cn) as (e & Ee & Ce & Ve). unfold F_pow_assign. rewrite Ee. unfold pow_assign. cbn [rd].
  rewrite <- Ve in *. assert (P : 0 <= val e) by lia. clear Ve Ee. destruct vx as [ex|].
  - cbn [is_x] in Hx. pose proof (is_ext_parts _ _ Hx) as (C1 & C2 & Pb).
    destruct (op_pow_right (bot x) e) as (b & Eb & Cb & Vb); auto. rewrite Eb. cbn [set_bot fthen top].
    destruct (op_pow_right (top x) e) as (t & Et & Ct & Vt); auto. rewrite Et. cbn [set_top fthen bot].
    eapply ends_ext; [apply normalize_ends; auto|..]; rewrite ?Vb, ?Vt; unfold x_pow; replace (val e <? 0) with false by lia.
    + intros N. destruct (Z.eqb_spec (val e) 0) as [E0|E0].
      * rewrite E0. eexists. split; [reflexivity|]. reflexivity.
      * destruct ex as [p|s].
        -- pose proof (fin_parts _ _ Hx) as (Bx & Vx & Zx & Sx). rewrite Bool.andb_false_r. eexists. split; [reflexivity|]. rewrite ratio_pow by lia. fold (Fval x). rewrite Vx. reflexivity.
        -- pose proof (inf_parts _ _ Hx) as (Bx & Tx). exfalso. apply N. rewrite Bx. apply Z.pow_0_l. lia.
    + intros Eb0 Et0. exfalso. destruct (Z.eq_dec (val e) 0) as [E0|E0]; [rewrite E0 in Eb0; cbn in Eb0; lia|].
      apply Z.pow_eq_0 in Eb0; [|lia]. apply Z.pow_eq_0 in Et0; [|lia]. destruct ex as [p|s].
      * pose proof (fin_parts _ _ Hx) as (Bx & _). lia.
      * pose proof (inf_parts _ _ Hx) as (Bx & Tx). destruct s; lia.
    + intros Eb0 Et0. destruct (Z.eqb_spec (val e) 0) as [E0|E0]; [rewrite E0 in Eb0; cbn in Eb0; lia|].
      apply Z.pow_eq_0 in Eb0; [|lia]. destruct ex as [p|s].
      * pose proof (fin_parts _ _ Hx) as (Bx & _). lia.
      * pose proof (inf_parts _ _ Hx) as (Bx & Tx). rewrite Tx, one_pow_sign by auto.
        assert (Nb : negative b = false) by (apply canonical_nonneg_flag; auto; rewrite Vb; apply Z.pow_nonneg; lia).
        rewrite Nb, Bool.xorb_false_l. do 2 f_equal. destruct (s && Z.odd (val e)); reflexivity.
  - destruct Hx as (W1 & W2 & V1 & V2).
    destruct (pow_zero (bot x) e) as (b & Eb & Wb & Vb & Cb); auto. rewrite Eb. cbn [set_bot fthen top].
    destruct (pow_zero (top x) e) as (t & Et & Wt & Vt & Ct); auto. rewrite Et. cbn [set_top fthen bot]. unfold x_pow.
    destruct (Z.eqb_spec (val e) 0) as [E0|E0].
    + eapply ends_ext; [apply normalize_ends; auto|..]; rewrite Vb, Vt; intros; try lia. eexists. split; [reflexivity|]. reflexivity.
    + apply stays_leaves, normalize_nan; auto.
Qed.
(** *** Comparisons *)
Lemma F_lt_x x y vx vy : is_x x vx -> is_x y vy -> exists l, F_lt x y = Ok l /\ (l = true <-> x_lt vx vy).
Proof.
  intros Hx Hy. destruct vx as [ex|], vy as [ey|]; cbn [x_lt]; [apply F_lt_ext; auto|..];
    (destruct (is_x_wf _ _ Hx) as [W1 W2]; destruct (is_x_wf _ _ Hy) as [W3 W4]; cbn [is_x] in *; exists false; split; [|split; [discriminate|contradiction]];
     unfold F_lt; repeat mulg; rewrite op_lt_spec by auto; f_equal; unfold is_nan in *; nia).
Qed.
Lemma F_eq_x x y vx vy : is_x x vx -> is_x y vy -> exists l, F_eq x y = Ok l /\ (l = true <-> x_eq vx vy).
Proof.
  intros Hx Hy. destruct vx as [ex|], vy as [ey|]; cbn [x_eq]; [apply F_eq_ext; auto|..];
    destruct (is_x_wf _ _ Hx) as [W1 W2]; destruct (is_x_wf _ _ Hy) as [W3 W4]; cbn [is_x] in *; unfold F_eq; rewrite op_eq_spec by auto; cbn [bind]; rewrite op_eq_spec by auto.
  - destruct Hy as (_ & _ & V1 & V2). exists false. split; [|split; [discriminate|contradiction]]. rewrite V1, V2.
    destruct ex as [p|n].
    + pose proof (fin_parts _ _ Hx) as (Bx & _). destruct (val (top x) =? 0); f_equal. lia.
    + pose proof (inf_parts _ _ Hx) as (Bx & Tx). rewrite Tx. destruct n; reflexivity.
  - destruct Hx as (_ & _ & V1 & V2). exists false. split; [|split; [discriminate|contradiction]]. rewrite V1, V2.
    destruct ey as [p|n].
    + pose proof (fin_parts _ _ Hy) as (Bx & _). destruct (0 =? val (top y)); f_equal. lia.
    + pose proof (inf_parts _ _ Hy) as (Bx & Tx). rewrite Tx. destruct n; reflexivity.
  - destruct Hx as (_ & _ & V1 & V2), Hy as (_ & _ & V3 & V4). exists true. rewrite V1, V2, V3, V4. split; [reflexivity|tauto].
Qed.
Lemma Fcmp_x c x y vx vy : is_x x vx -> is_x y vy -> exists l, Fcmp c x y = Ok l /\ (l = true <-> x_cmp c vx vy).
Proof.
  intros Hx Hy. destruct (F_lt_x x y vx vy Hx Hy) as (l & El & Hl). destruct (F_lt_x y x vy vx Hy Hx) as (k & Ek & Hk). destruct (F_eq_x x y vx vy Hx Hy) as (e & Ee & He).
  assert (NEG : forall b P, (b = true <-> P) -> (negb b = true <-> ~ P)) by (intros [|] P HP; cbn; intuition congruence).
  destruct c; cbn [Fcmp x_cmp]; unfold F_ne, F_gt, F_le, F_ge; rewrite ?El, ?Ek, ?Ee; cbn [bind]; eauto.
Qed.

(** *** Programs *)
Definition reps (st : nat -> Frac) (xs : nat -> xval) : Prop := forall n, is_x (st n) (xs n).
Lemma reps_upd st xs d f v : reps st xs -> is_x f v -> reps (fupd st d f) (fupd xs d v).
Proof. intros H Hf n. unfold fupd. destruct (Nat.eqb n d); auto. Qed.
Definition step_ok (m : res ((nat -> Frac) * event)) (xs' : nat -> xval) (ev : event) : Prop :=
  m = Abort \/ exists st', m = Ok (st', ev) /\ reps st' xs'.
Lemma try_new_ok st xs d m v xs' ev : reps st xs -> returns_ext m v -> sets_new xs d v xs' ev -> step_ok (try_new st d m) xs' ev.
Proof.
  unfold returns_ext, step_ok, try_new. intros R H S. destruct m as [r|e| | |]; try contradiction; auto; right.
  - destruct H as (q & -> & Hq). inversion S; subst; [|exfalso; eapply H; reflexivity]. eexists. split; [reflexivity|]. apply reps_upd; auto.
  - destruct H as [-> N]. inversion S; subst; [exfalso; eapply N; reflexivity|]. eauto.
Qed.
Lemma try_in_place_ok st xs d p v xs' ev : reps st xs -> leaves_ext p v -> sets_in_place xs d v xs' ev -> step_ok (try_in_place st d p) xs' ev.
Proof.
  unfold leaves_ext, step_ok, try_in_place. intros R H S. destruct (snd p) as [r|e| | |]; try contradiction; auto; right.
  - destruct H as (q & -> & Hq). inversion S; subst. eexists. split; [reflexivity|]. apply reps_upd; auto.
  - destruct H as (-> & -> & Hn). inversion S; subst. eexists. split; [reflexivity|]. apply reps_upd; auto.
Qed.
Lemma zero_x : is_x (mkFrac (mkInt [0] false) (mkInt [1] false)) (Some (Fin 0)).
Proof. split; [apply zero_frac|reflexivity]. Qed.
Lemma cexec_ok st xs s xs' ev : reps st xs -> legal s -> xexec xs s xs' ev -> step_ok (cexec st s) xs' ev.
Proof.
  intros R L H. destruct H as [d|d a|d a b xs' ev H|d s n m H N|d s H|d a|d a xs' ev H|o d a b xs' ev H|o d a b xs' ev H|o d a b xs' ev H|d a n xs' ev H|o d b xs' ev H|o d b xs' ev H|d n xs' ev H|c a b r H];
    cbn [cexec legal] in *.
  - right. eexists. split; [reflexivity|]. apply reps_upd; auto. apply zero_x.
  - right. destruct (C32_of_Int a L) as (f & -> & Rf & V). eexists. split; [reflexivity|]. apply reps_upd; auto. split; auto.
  - eapply try_new_ok; eauto. apply make_x; apply L.
  - destruct (Frac_of_string_makes s n m H N) as [[? _]|[(_ & _ & E)|(_ & _ & f & E & Rf & V)]]; [contradiction|left|right]; rewrite E; [reflexivity|].
    eexists. split; [reflexivity|]. apply reps_upd; auto. split; auto.
  - right. exists st. split; auto. assert (E : Frac_of_string s = Throw InvalidArgument).
    { destruct (frac_string_cases s) as [(n & m & Hs)|Hs]; [|apply Frac_of_string_bad, Hs].
      assert (m = 0) by (eapply H; eauto). subst. eapply Frac_of_string_zero; eauto. }
    rewrite E. reflexivity.
  - right. eexists. split; [reflexivity|]. apply reps_upd; auto.
  - eapply try_new_ok; eauto. apply recip_x; auto.
  - eapply try_new_ok; eauto. apply Fbin_x; auto.
  - eapply try_new_ok; eauto. apply IFbin_x; auto.
  - eapply try_new_ok; eauto. apply FIbin_x; auto.
  - eapply try_new_ok; eauto. apply pow_x; auto; apply L.
  - eapply try_in_place_ok; eauto. apply Fasg_x; auto. destruct (Nat.eqb_spec d b); cbn [rd]; subst; auto.
  - eapply try_in_place_ok; eauto. apply FIasg_x; auto.
  - eapply try_in_place_ok; eauto. apply pow_assign_x; auto; apply L.
  - right. destruct (Fcmp_x c _ _ _ _ (R a) (R b)) as (l & E & Hl). rewrite E. cbn [bind]. exists st. split; auto.
    replace r with l; auto. destruct l, r; intuition congruence.
Qed.
Lemma crun_ok p : forall st xs xs' tr, reps st xs -> Forall legal p -> xrun xs p xs' tr ->
  crun st p = Abort \/ exists st', crun st p = Ok (st', tr) /\ reps st' xs'.
Proof.
  induction p as [|s p IH]; intros st xs xs' tr R L H; inversion H; subst; cbn [crun].
  - right. eauto.
  - inversion L; subst. destruct (cexec_ok st xs s xs'0 ev R) as [E|(st1 & E & R1)]; auto; rewrite E; [left; reflexivity|]. cbn [bind fst snd].
    destruct (IH st1 xs'0 xs' tr0 R1) as [E2|(st2 & E2 & R2)]; auto; rewrite E2; [left; reflexivity|]. cbn [bind fst snd]. right. eauto.
Qed.
(** every program has a meaning *)
Lemma sets_new_total xs d v : exists xs' ev, sets_new xs d v xs' ev.
Proof. destruct v as [[q|n]|]; [eexists _, _; apply sn_ok|eexists _, _; apply sn_throw; discriminate..]. Qed.
Lemma sets_in_place_total xs d v : exists xs' ev, sets_in_place xs d v xs' ev.
Proof. destruct v as [e|]; eexists _, _; [apply si_ok|apply si_throw]. Qed.
Lemma x_lt_dec x y : {x_lt x y} + {~ x_lt x y}.
Proof.
  destruct x as [[p|n]|], y as [[q|m]|]; cbn [x_lt e_lt]; try (right; tauto).
  - destruct (Qlt_le_dec p q); [left; auto|right]. apply Qle_not_lt. auto.
  - destruct m; [right; discriminate|left; auto].
  - destruct n; [left; auto|right; discriminate].
Qed.
Lemma x_eq_dec x y : {x_eq x y} + {~ x_eq x y}.
Proof.
  destruct x as [[p|n]|], y as [[q|m]|]; cbn [x_eq e_eq]; try (right; tauto); try (left; exact I).
  - apply Qeq_dec.
  - apply Bool.bool_dec.
Qed.
Lemma x_cmp_total c x y : exists r, r = true <-> x_cmp c x y.
Proof.
  assert (D : {x_cmp c x y} + {~ x_cmp c x y}).
  { destruct c; cbn [x_cmp].
    - apply x_eq_dec.
    - destruct (x_eq_dec x y); [right|left]; tauto.
    - apply x_lt_dec.
    - apply x_lt_dec.
    - destruct (x_lt_dec y x); [right|left]; tauto.
    - destruct (x_lt_dec x y); [right|left]; tauto. }
  destruct D; [exists true|exists false]; intuition congruence.
Qed.
Lemma xexec_total xs s : exists xs' ev, xexec xs s xs' ev.
Proof.
  destruct s as [[d|d a|d a b|d s|d a|d a|o d a b|o d a b|o d a b|d a n|o d b|o d b|d n]|c a b].
  - eexists _, _. constructor.
  - eexists _, _. constructor.
  - destruct (sets_new_total xs d (x_op FDiv (int_x a) (int_x b))) as (xs' & ev & H). exists xs', ev. constructor. exact H.
  - destruct (frac_string_cases s) as [(n & m & H)|H].
    + destruct (Z.eq_dec m 0) as [->|N]; [|eexists _, _; eapply xe_string; eauto].
      eexists _, _. apply xe_bad. intros n' m' H'. destruct (Z.eq_dec m' 0) as [|N]; auto. exfalso.
      pose proof (Frac_of_string_zero s n H) as E. destruct (Frac_of_string_makes s n' m' H' N) as [[? _]|[(_ & _ & E2)|(_ & _ & f & E2 & _)]]; [contradiction|congruence|congruence].
    + eexists _, _. apply xe_bad. intros n m H'. exfalso. eapply H; eauto.
  - eexists _, _. constructor.
  - destruct (sets_new_total xs d (x_op FDiv (Some (Fin 1)) (xs a))) as (xs' & ev & H). exists xs', ev. constructor. exact H.
  - destruct (sets_new_total xs d (x_op o (xs a) (xs b))) as (xs' & ev & H). exists xs', ev. constructor. exact H.
  - destruct (sets_new_total xs d (x_op o (int_x a) (xs b))) as (xs' & ev & H). exists xs', ev. constructor. exact H.
  - destruct (sets_new_total xs d (x_op o (xs a) (int_x b))) as (xs' & ev & H). exists xs', ev. constructor. exact H.
  - destruct (sets_new_total xs d (x_pow (xs a) (val n))) as (xs' & ev & H). exists xs', ev. constructor. exact H.
  - destruct (sets_in_place_total xs d (x_op o (xs d) (xs b))) as (xs' & ev & H). exists xs', ev. constructor. exact H.
  - destruct (sets_in_place_total xs d (x_op o (xs d) (int_x b))) as (xs' & ev & H). exists xs', ev. constructor. exact H.
  - destruct (sets_in_place_total xs d (x_pow (xs d) (Z.abs (val n)))) as (xs' & ev & H). exists xs', ev. constructor. exact H.
  - destruct (x_cmp_total c (xs a) (xs b)) as (r & H). eexists _, _. constructor. exact H.
Qed.
Lemma xrun_total p : forall xs, exists xs' tr, xrun xs p xs' tr.
Proof.
  induction p as [|s p IH]; intros xs; [eexists _, _; constructor|].
  destruct (xexec_total xs s) as (xs1 & ev & H1). destruct (IH xs1) as (xs2 & tr & H2). eexists _, _. econstructor; eauto.
Qed.

(** *** 0/0 stays *)
Lemma x_op_none_l o v : x_op o None v = None.
Proof. destruct o; reflexivity. Qed.
Lemma xexec_nan xs s xs' ev d : xexec xs s xs' ev -> xs d = None -> only_updates d s -> xs' d = None /\ (in_place_on d s -> ev = Caught DivideByZero).
Proof.
  intros H N O.
  assert (KN : forall e v ys w, e <> d -> sets_new xs e v ys w -> ys d = None).
  { intros e v ys w Ne S. inversion S; subst; auto. unfold fupd. destruct (Nat.eqb_spec d e); auto. congruence. }
  assert (KE : forall e v, e <> d -> fupd xs e v d = None).
  { intros e v Ne. unfold fupd. destruct (Nat.eqb_spec d e); auto. congruence. }
  assert (KI : forall e v ys w, (e = d -> v = None) -> sets_in_place xs e v ys w -> ys d = None /\ (e = d -> w = Caught DivideByZero)).
  { intros e v ys w Hv S. destruct (Nat.eq_dec e d) as [->|Ne].
    - rewrite Hv in S by auto. inversion S; subst. split; auto. unfold fupd. rewrite Nat.eqb_refl. auto.
    - split; [|tauto]. inversion S; subst; apply KE; auto. }
  destruct H; cbn [only_updates in_place_on] in *; try (split; [eauto|tauto]).
  - eapply KI; [|eassumption]. intros ->. rewrite N. apply x_op_none_l.
  - eapply KI; [|eassumption]. intros ->. rewrite N. apply x_op_none_l.
  - eapply KI; [|eassumption]. intros ->. rewrite N. unfold x_pow. destruct (Z.eqb_spec (Z.abs (val n)) 0) as [E|E]; auto. exfalso. apply O; auto. lia.
Qed.
Lemma xrun_nan p : forall xs xs' tr d, xrun xs p xs' tr -> xs d = None -> Forall (only_updates d) p ->
  xs' d = None /\ Forall2 (fun s ev => in_place_on d s -> ev = Caught DivideByZero) p tr.
Proof.
  induction p as [|s p IH]; intros xs xs' tr d H N O; inversion H; subst; [auto|]. inversion O; subst.
  destruct (xexec_nan _ _ _ _ d H3 N) as [N1 E1]; auto. destruct (IH _ _ _ d H6 N1) as [N2 F2]; auto.
Qed.
(** *** Reading a value off an object *)
Definition classify (f : Frac) : xval :=
  if val (bot f) =? 0 then if val (top f) =? 0 then None else Some (Inf (val (top f) <? 0)) else Some (Fin (Fval f)).
Lemma classify_ok f v : is_x f v -> is_x f (classify f).
Proof.
  intros H. unfold classify. destruct v as [[q|n]|].
  - pose proof (fin_parts _ _ H) as (B0 & _). replace (val (bot f) =? 0) with false by lia. destruct H as [R V]. split; auto. reflexivity.
  - pose proof (inf_parts _ _ H) as (B0 & T0). rewrite B0, T0. cbn [is_x is_ext] in H. destruct n; exact H.
  - destruct H as (W1 & W2 & V1 & V2). rewrite V1, V2. cbn. unfold is_nan. auto.
Qed.
Lemma is_x_unique f v w : is_x f v -> is_x f w -> x_eq v w.
Proof.
  intros Hv Hw.
  destruct v as [[p|n]|], w as [[q|m]|]; cbn [x_eq e_eq]; auto;
    try (pose proof (fin_parts _ _ Hv) as (Bv & Vv & _)); try (pose proof (inf_parts _ _ Hv) as (Bv & Tv));
    try (pose proof (fin_parts _ _ Hw) as (Bw & Vw & _)); try (pose proof (inf_parts _ _ Hw) as (Bw & Tw));
    try (destruct Hv as (_ & _ & V1 & V2)); try (destruct Hw as (_ & _ & V3 & V4)); try lia.
  - rewrite <- Vv, <- Vw. reflexivity.
  - destruct n; lia.
  - destruct m; lia.
Qed.
Lemma xexec_caught xs s xs' e : xexec xs s xs' (Caught e) -> e = DivideByZero \/ e = InvalidArgument.
Proof.
  intros H; inversion H; subst; auto;
  match goal with S : sets_new _ _ _ _ _ |- _ => inversion S | S : sets_in_place _ _ _ _ _ |- _ => inversion S end; auto.
Qed.
Lemma xrun_caught p : forall xs xs' tr e, xrun xs p xs' tr -> In (Caught e) tr -> e = DivideByZero \/ e = InvalidArgument.
Proof.
  induction p as [|s p IH]; intros xs xs' tr e H I; inversion H; subst; [destruct I|]. destruct I as [->|I]; [eapply xexec_caught; eauto|eapply IH; eauto].
Qed.
Lemma crun_closed p st : (forall n, exists v, is_x (st n) v) -> Forall legal p ->
  match crun st p with
  | Ok (st', tr) => (forall n, exists v, is_x (st' n) v) /\ (forall e, In (Caught e) tr -> e = DivideByZero \/ e = InvalidArgument)
  | Abort => True
  | Throw _ | UB | OutOfFuel => False
  end.
Proof.
  intros H L. assert (R : reps st (fun n => classify (st n))) by (intros n; destruct (H n); eapply classify_ok; eauto).
  destruct (xrun_total p (fun n => classify (st n))) as (xs' & tr & X).
  destruct (crun_ok p _ _ _ _ R L X) as [->|(st' & -> & R')]; [exact I|]. split; [intros n; exists (xs' n); apply R'|].
  intros e. eapply xrun_caught; eauto.
Qed.
Lemma crun_nan_stays p st d st' tr : (forall n, exists v, is_x (st n) v) -> Forall legal p ->
  is_nan (st d) -> Forall (only_updates d) p -> crun st p = Ok (st', tr) ->
  is_nan (st' d) /\ Forall2 (fun s ev => in_place_on d s -> ev = Caught DivideByZero) p tr.
Proof.
  intros H L N O E. assert (R : reps st (fun n => classify (st n))) by (intros n; destruct (H n); eapply classify_ok; eauto).
  destruct (xrun_total p (fun n => classify (st n))) as (xs' & tr' & X).
  destruct (crun_ok p _ _ _ _ R L X) as [E'|(st1 & E' & R')]; rewrite E' in E; [discriminate|]. injection E as -> ->.
  destruct (xrun_nan p _ _ _ d X) as [N' F]; auto.
  - destruct N as (_ & _ & V1 & V2). unfold classify. rewrite V1, V2. reflexivity.
  - split; auto. specialize (R' d). rewrite N' in R'. exact R'.
Qed.
