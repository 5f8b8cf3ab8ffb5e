(** The operators of Int and Frac with and without assertions. *)
From Coq Require Import QArith Lia.
From Verif Require Import Base IntModel IntSpec IntBasics IntAddSub IntMul IntDiv IntScale FracModel FracSpec FracProofs ElemModel ElemSpec ElemProofs ElemInst VecModel MatModel
  SimSpec SimProofs ExtSpec ExtProofs ReleaseModel ReleaseSpec ReleaseProofs ReleaseProofs2 FracReleaseModel FracReleaseSpec FracReleaseProofs ContReleaseModel ContReleaseSpec ContReleaseProofs.
Local Open Scope Z_scope.

(** the same value, which has P *)
Definition same {A} (P : A -> Prop) (x y : A) : Prop := y = x /\ P x.
Lemma released_alike {A} (P : A -> Prop) (m m' : res A) : m' = released m -> (forall r, m = Ok r -> P r) -> alike (same P) m m'.
Proof. intros -> H. destruct m; cbn; auto. split; auto. Qed.
Lemma alike_released {A} (P : A -> Prop) (m m' : res A) : alike (same P) m m' -> m' = released m.
Proof.
  intros H. destruct m as [a|e| | |], m' as [b|e'| | |]; cbn in *; try contradiction; try congruence. - destruct H. congruence. - destruct e'; try contradiction. reflexivity.
Qed.
Lemma alike_has {A} (P : A -> Prop) (m m' : res A) r : alike (same P) m m' -> m' = Ok r -> P r.
Proof. intros H ->. destruct m as [a|e| | |]; cbn in H; try contradiction. destruct H as [-> H]. exact H. Qed.
Lemma alike_eq {A} (m m' : res A) : alike eq m m' -> m' = released m.
Proof. intros H. destruct m as [a|e| | |], m' as [b|e'| | |]; cbn in *; try contradiction; try congruence. destruct e'; try contradiction. reflexivity. Qed.
Lemma opt_same {A} (P : A -> Prop) y y' : option_rel (same P) y y' -> y' = y /\ opt_all P y.
Proof. destruct y, y'; cbn; try contradiction; [intros [-> ?]; auto|auto]. Qed.

(** *** Int *)
Lemma keeps_released {A} (m m' : res A) r : keeps m m' -> m = Ok r -> m' = released m.
Proof. intros K E. rewrite E, (K r E). reflexivity. Qed.
Lemma op_add_alike x y : canonical x -> canonical y -> alike (same canonical) (op_add x y) (op_add_nd x y).
Proof.
  intros Cx Cy. destruct (op_add_ok x y) as (r & E & C & _); auto. apply released_alike; [eapply keeps_released; [apply op_add_keeps|exact E]|]. intros r' E'. congruence.
Qed.
Lemma op_sub_alike x y : canonical x -> canonical y -> alike (same canonical) (op_sub x y) (op_sub_nd x y).
Proof.
  intros Cx Cy. destruct (op_sub_ok x y) as (r & E & C & _); auto. apply released_alike; [eapply keeps_released; [apply op_sub_keeps|exact E]|]. intros r' E'. congruence.
Qed.
Lemma op_mul_alike x y : canonical x -> canonical y -> alike (same canonical) (op_mul x y) (op_mul_nd x y).
Proof.
  intros Cx Cy. destruct (op_mul_ok x y) as (r & E & C & _); auto. apply released_alike; [eapply keeps_released; [apply op_mul_keeps|exact E]|]. intros r' E'. congruence.
Qed.
Lemma op_neg_alike x : canonical x -> alike (same canonical) (op_neg x) (op_neg x).
Proof.
  intros Cx. destruct (op_neg_ok x) as (r & E & _ & _ & _ & _ & _ & C); auto. rewrite E. split; auto.
Qed.
Lemma op_eq_alike x y : canonical x -> canonical y -> alike eq (op_eq x y) (op_eq x y).
Proof. intros Cx Cy. rewrite op_eq_spec by auto. reflexivity. Qed.
Lemma addsub_alike s x y : canonical x -> opt_all canonical y -> alike (same canonical) (addsub_assign 3 s x y) (addsub_assign_nd 3 s x y).
Proof.
  intros Cx Cy. destruct (addsub_assign_ok s x y) as (r & E & C & _); auto; [intros z ->; destruct Cy as (W & T & _); split; auto|].
  apply released_alike; [eapply keeps_released; [apply addsub_assign_keeps|exact E]|]. intros r' E'. congruence.
Qed.
Lemma mulA_alike x y : wf x -> opt_all wf y -> alike (same wf) (mul_assign x y) (mul_assign_nd x y).
Proof.
  intros Wx Wy. destruct (mul_assign_ok x y) as (r & E & W & _); auto; [intros z ->; exact Wy|].
  apply released_alike; [eapply keeps_released; [apply mul_assign_keeps|exact E]|]. intros r' E'. congruence.
Qed.
Lemma op_div_alike x y : wf x -> wf y -> alike (same canonical) (op_div x y) (op_div_nd x y).
Proof.
  intros Wx Wy. apply released_alike; [apply op_div_released; auto|]. intros r E. unfold op_div in E.
  destruct (divide_gen x y Wx Wy) as [[_ H]|[(_ & _ & H)|(_ & _ & [(_ & H)|(_ & r' & H & C & _)])]]; try congruence.
  assert (r = mkInt [0] false) by congruence. subst r. destruct (Int_const_exact 0) as [C _]; [lia|]. exact C.
Qed.
Lemma int_ring_alike : ring_alike (same canonical) Int_ops Int_ops_nd.
Proof.
  split; cbn [of_int fresh add sub mul neg eqb addA subA Int_ops Int_ops_nd].
  - intros k Hk. split; auto. apply (Int_const_exact k). cbn in Hk. lia.
  - split; auto. destruct (Int_const_exact 0) as [C _]; [lia|]. exact C.
  - intros x y x' y' [-> Cx] [-> Cy]. apply op_add_alike; auto.
  - intros x y x' y' [-> Cx] [-> Cy]. apply op_sub_alike; auto.
  - intros x y x' y' [-> Cx] [-> Cy]. apply op_mul_alike; auto.
  - intros x x' [-> Cx]. apply op_neg_alike; auto.
  - intros x y x' y' [-> Cx] [-> Cy]. apply op_eq_alike; auto.
  - intros x y x' y' [-> Cx] Hy. apply opt_same in Hy as [-> Hy]. apply (addsub_alike false); auto.
  - intros x y x' y' [-> Cx] Hy. apply opt_same in Hy as [-> Hy]. apply (addsub_alike true); auto.
Qed.
Lemma int_divA_alike x y : wf x -> opt_all wf y -> alike (same canonical) (div_assign x y) (finish (div_assign_nd x y)).
Proof. intros Wx Wy. apply (op_div_alike x (rd x y)); auto. destruct y; cbn; auto. Qed.
Lemma opt_all_mono {A} (P Q : A -> Prop) y : (forall x, P x -> Q x) -> opt_all P y -> opt_all Q y.
Proof. intros H. destruct y; cbn; auto. Qed.
Lemma int_div_alike : div_alike (same canonical) Int_ops Int_ops_nd.
Proof.
  split; cbn [div divA Int_ops Int_ops_nd].
  - intros x y x' y' [-> Cx] [-> Cy]. apply op_div_alike; auto.
  - intros x y x' y' [-> Cx] Hy. apply opt_same in Hy as [-> Hy]. apply int_divA_alike; auto. eapply opt_all_mono; [|exact Hy]; auto.
Qed.
Lemma int_prod_alike : prod_alike (same canonical) (same wf) Int_ops Int_ops_nd.
Proof.
  split; cbn [div mulA Int_ops Int_ops_nd].
  - intros x x' [-> Cx]. split; auto.
  - intros x y x' y' [-> Wx] [-> Cy]. apply mulA_alike; cbn; auto.
  - intros x y x' y' [-> Wx] [-> Wy]. apply op_div_alike; auto.
Qed.

(** *** Frac: a number or an infinity *)
Definition ext_frac (f : Frac) : Prop := exists e, is_ext f e.
Lemma ext_cparts f : ext_frac f -> cparts f.
Proof.
  intros ([q|n] & H); cbn in H.
  - destruct H as [(C1 & C2 & _) _]. split; auto.
  - subst f. destruct (Int_const_exact 0) as [C0 _]; [lia|]. destruct (Int_const_exact (if n then -1 else 1)) as [C1 _]; [destruct n; lia|].
    split; [destruct n; exact C1|exact C0].
Qed.
Lemma reduced_ext f : reduced f -> ext_frac f.
Proof. intros H. exists (Fin (Fval f)). split; [exact H|reflexivity]. Qed.
Lemma made_ext m t b r : makes m t b -> m = Ok r -> ext_frac r.
Proof. intros [[_ E]|[(_ & _ & E)|(_ & _ & f & E & R & _)]] E'; try congruence. assert (r = f) by congruence. subst. apply reduced_ext, R. Qed.
Lemma left_ext p o r : leaves_ext p o -> result p = Ok r -> ext_frac r.
Proof.
  intros H E. unfold result, leaves_ext in *. destruct (snd p); try discriminate. cbn in E. destruct H as (e & _ & H). injection E as <-. exists e. exact H.
Qed.
Lemma frac_asg_alike p p' t b n : ended p p' t b n -> (forall r, result p = Ok r -> ext_frac r) -> alike (same ext_frac) (result p) (result p').
Proof. intros H G. apply released_alike; [eapply same_end_released; exact H|exact G]. Qed.
Lemma opt_ext y : opt_all ext_frac y -> forall g, y = Some g -> cparts g.
Proof. intros H g ->. apply ext_cparts, H. Qed.
Lemma rd_ext x y : ext_frac x -> opt_all ext_frac y -> ext_frac (rd x y).
Proof. destruct y; cbn; auto. Qed.

Lemma frac_ring_alike : ring_alike (same ext_frac) Frac_ops Frac_ops_nd.
Proof.
  split; cbn [of_int fresh add sub mul neg eqb addA subA Frac_ops Frac_ops_nd].
  - intros k Hk. split; auto. apply reduced_ext. apply (Frac_const_exact k). cbn in Hk. lia.
  - split; auto. apply reduced_ext, (Frac_const_exact 0). lia.
  - intros x y x' y' [-> Hx] [-> Hy]. pose proof (ext_cparts _ Hx). pose proof (ext_cparts _ Hy). apply released_alike; [apply F_add_released; auto|].
    intros r. eapply made_ext. apply F_add_makes; auto.
  - intros x y x' y' [-> Hx] [-> Hy]. pose proof (ext_cparts _ Hx). pose proof (ext_cparts _ Hy). apply released_alike; [apply F_sub_released; auto|].
    intros r. eapply made_ext. apply F_sub_makes; auto.
  - intros x y x' y' [-> Hx] [-> Hy]. pose proof (ext_cparts _ Hx). pose proof (ext_cparts _ Hy). apply released_alike; [apply F_mul_released; auto|].
    intros r. eapply made_ext. apply F_mul_makes; auto.
  - intros x x' _. exact Logic.I.
  - intros x y x' y' [-> Hx] [-> Hy]. destruct (ext_cparts _ Hx), (ext_cparts _ Hy). unfold F_eq. rewrite !op_eq_spec by auto. cbn [bind]. destruct (_ =? _); reflexivity.
  - intros x y x' y' [-> Hx] Hy. apply opt_same in Hy as [-> Hy]. eapply frac_asg_alike; [apply F_add_ended; [apply ext_cparts, Hx|apply opt_ext, Hy]|].
    intros r. destruct Hx as (ex & Hx), (rd_ext x y (ex_intro _ ex Hx) Hy) as (ey & Hy'). eapply left_ext. eapply F_add_ext; eauto.
  - intros x y x' y' [-> Hx] Hy. apply opt_same in Hy as [-> Hy]. eapply frac_asg_alike; [apply F_sub_ended; [apply ext_cparts, Hx|apply opt_ext, Hy]|].
    intros r. destruct Hx as (ex & Hx), (rd_ext x y (ex_intro _ ex Hx) Hy) as (ey & Hy'). eapply left_ext. eapply F_sub_ext; eauto.
Qed.
Lemma frac_div_alike : div_alike (same ext_frac) Frac_ops Frac_ops_nd.
Proof.
  split; cbn [div divA Frac_ops Frac_ops_nd].
  - intros x y x' y' [-> Hx] [-> Hy]. pose proof (ext_cparts _ Hx). pose proof (ext_cparts _ Hy). apply released_alike; [apply F_div_released; auto|].
    intros r. eapply made_ext. apply F_div_makes; auto.
  - intros x y x' y' [-> Hx] Hy. apply opt_same in Hy as [-> Hy]. eapply frac_asg_alike; [apply F_div_ended; [apply ext_cparts, Hx|apply opt_ext, Hy]|].
    intros r. destruct Hx as (ex & Hx), (rd_ext x y (ex_intro _ ex Hx) Hy) as (ey & Hy'). eapply left_ext. eapply F_div_ext; eauto.
Qed.
Lemma frac_mulA_alike x y : ext_frac x -> opt_all ext_frac y -> alike (same ext_frac) (mulA Frac_ops x y) (mulA Frac_ops_nd x y).
Proof.
  intros Hx Hy. cbn [mulA Frac_ops Frac_ops_nd]. eapply frac_asg_alike; [apply F_mul_ended; [apply ext_cparts, Hx|apply opt_ext, Hy]|].
  intros r. destruct Hx as (ex & Hx), (rd_ext x y (ex_intro _ ex Hx) Hy) as (ey & Hy'). eapply left_ext. eapply F_mul_ext; eauto.
Qed.

(** *** Whatever the operands: the assertions are no part of a result *)
Lemma keeps_sim {A} (m m' : res A) : keeps m m' -> sim never eq m m'.
Proof. intros K a E. rewrite (K a E). apply ret_ok. reflexivity. Qed.
