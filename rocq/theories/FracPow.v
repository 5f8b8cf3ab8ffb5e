(** Powers of a Frac, for every exponent. *)
From Coq Require Import QArith Qpower.
From Verif Require Import Base IntModel IntSpec IntBasics IntAddSub IntMul IntDiv IntMod IntPowExact FracModel FracSpec FracProofs.
From Coq Require Import ZifyBool.

Lemma op_pow_both x x' y : canonical x -> canonical x' -> canonical y -> 0 <= val y ->
  (exists e, power_taken 0 (val y) e /\ 0 <= e /\ (exists r, op_pow x y = Ok r /\ canonical r /\ val r = val x ^ e) /\
     (exists r, op_pow x' y = Ok r /\ canonical r /\ val r = val x' ^ e)) \/
  (power_stops 0 (val y) /\ op_pow x y = Abort /\ op_pow x' y = Abort).
Proof.
  intros Cx Cx' Cy Py.
  destruct (op_pow_exact x y Cx Cy Py) as [(e & r & T & E & C & V)|[S1 E]],
    (op_pow_exact x' y Cx' Cy Py) as [(e' & r' & T' & E' & C' & V')|[S1' E']].
  - left. rewrite <- (power_taken_unique 0 _ _ _ T T') in *. exists e. splits; eauto.
    eapply power_taken_nonneg; eauto.
  - exfalso. eapply power_taken_stops; eauto.
  - exfalso. eapply power_taken_stops; eauto.
  - right. auto.
Qed.
Lemma abs_exponent a : canonical a -> exists e, (if is_negative a then op_neg a else Ok a) = Ok e /\ canonical e /\ val e = Z.abs (val a).
Proof.
  intros Ca. unfold is_negative. rewrite (canonical_neg_eq a Ca). destruct (Z.ltb_spec (val a) 0).
  - destruct (op_neg_ok a) as (n & En & Vn & _ & Wn & _ & _ & Cn); auto. exists n. splits; auto. lia.
  - exists a. splits; auto. lia.
Qed.
Lemma F_pow_exact x a : parts x -> canonical a ->
  (exists e, power_taken 0 (Z.abs (val a)) e /\ 0 <= e /\
     makes (F_pow x a) (if val a <? 0 then val (bot x) ^ e else val (top x) ^ e) (if val a <? 0 then val (top x) ^ e else val (bot x) ^ e)) \/
  (power_stops 0 (Z.abs (val a)) /\ F_pow x a = Abort).
Proof.
  intros [Ct Cb] Ca. destruct (abs_exponent a Ca) as (n & En & Cn & Vn).
  unfold F_pow, is_negative in *. rewrite (canonical_neg_eq a Ca) in *. rewrite <- Vn.
  destruct (Z.ltb_spec (val a) 0) as [L|L].
  - rewrite En. cbn [bind].
    destruct (op_pow_both (bot x) (top x) n) as [(e & T & P & (t & Et & Ct' & Vt) & (b & Eb & Cb' & Vb))|(S1 & E1 & E2)]; auto; [lia| |].
    + left. exists e. splits; auto. rewrite Et. cbn [bind]. rewrite Eb. cbn [bind]. make_done.
    + right. rewrite E1. auto.
  - injection En as <-.
    destruct (op_pow_both (top x) (bot x) a) as [(e & T & P & (t & Et & Ct' & Vt) & (b & Eb & Cb' & Vb))|(S1 & E1 & E2)]; auto.
    + left. exists e. splits; auto. rewrite Et. cbn [bind]. rewrite Eb. cbn [bind]. make_done.
    + right. rewrite E1. auto.
Qed.
Lemma F_pow_assign_exact x a : reduced x -> canonical a ->
  (exists e, power_taken 0 (Z.abs (val a)) e /\ 0 <= e /\ leaves (F_pow_assign x a) (val (top x) ^ e) (val (bot x) ^ e)) \/
  (power_stops 0 (Z.abs (val a)) /\ F_pow_assign x a = (x, Abort)).
Proof.
  intros (Ct & Cb & Pb & _) Ca. destruct (abs_exponent a Ca) as (n & En & Cn & Vn).
  unfold F_pow_assign. rewrite En. rewrite <- Vn. unfold pow_assign. cbn [rd].
  destruct (op_pow_both (bot x) (top x) n) as [(e & T & P & (b & Eb & Cb' & Vb) & (t & Et & Ct' & Vt))|(S1 & E1 & E2)]; auto; [lia| |].
  - left. exists e. splits; auto. rewrite Eb. cbn [set_bot fthen top]. rewrite Et. cbn [set_top fthen bot].
    eapply leaves_eq; [apply normalize_leaves|..]; cbn [top bot]; auto. rewrite Vb. apply Z.pow_nonzero; lia.
  - right. rewrite E1. auto.
Qed.
