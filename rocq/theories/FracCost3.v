(** Bounds on the rounds of the operators of Frac. *)
From Coq Require Import ZifyBool.
From Verif Require Import Base IntModel IntSpec IntBasics IntAddSub IntMul IntDiv IntMod IntSize FracModel FracProofs.
From Verif Require Import CostModel CostProofs IntCostModel IntCost IntCost2 IntCost3 IntCost4 IntCost5 FracCostModel FracCostSpec FracCost FracCost2.
Local Open Scope list_scope.
Local Open Scope Z_scope.

(** Canonical parts of at most n bins. *)
Definition small (n : Z) (x : Int) : Prop := canonical x /\ len (bins x) <= n.
Definition fsmall (n : Z) (f : Frac) : Prop := small n (top f) /\ small n (bot f).
Lemma small_pos n x : small n x -> 1 <= n.
Proof. intros [C L]. pose proof (len_pos x ltac:(auto)). lia. Qed.
Lemma small_le n m x : small n x -> n <= m -> small m x.
Proof. intros [C L] H. split; [exact C|lia]. Qed.
Lemma product_pos n : 0 <= n -> 0 <= product n.
Proof. intros H. unfold product. pose proof (Z.pow_nonneg n 3 H). pose proof (Z.pow_nonneg n 2 H). lia. Qed.
Lemma reduction_pos n : 0 <= n -> 0 <= reduction n.
Proof. intros H. unfold reduction. pose proof (Z.pow_nonneg n 3 H). pose proof (Z.pow_nonneg n 2 H). lia. Qed.
Lemma power_pos s e l : 0 <= s -> 0 <= l -> 0 <= power s e l.
Proof. intros H H1. unfold power. pose proof (Z.pow_nonneg s 3 H). pose proof (Z.pow_nonneg s 2 H). pose proof (Z.log2_nonneg e). nia. Qed.
Lemma mul_small n x y : small n x -> small n y -> spends (op_mul_c x y) (product n) (small (2 * n)).
Proof. intros [Cx Lx] [Cy Ly]. eapply sp_weak; [apply (mul_n x y n); auto|lia|]. intros r (C & _ & L). split; auto. Qed.
Lemma addsub_small s n x y : small n x -> small n y -> spends (addsub_c 3 s x y) (sum n) (small (n + 1)).
Proof.
  intros Sx Sy. pose proof (small_pos _ _ Sx) as N. destruct Sx as [Cx Lx], Sy as [Cy Ly]. destruct (addsub_sp 1 s x y n N Lx Ly) as [H1 H2]. split; [exact H1|].
  intros r Er. split; [|exact (H2 r Er)]. rewrite addsub_e in Er. destruct s.
  - destruct (op_sub_ok x y) as (r' & E & C & _); auto. unfold op_sub in E. rewrite Er in E. injection E as <-. exact C.
  - destruct (op_add_ok x y) as (r' & E & C & _); auto. unfold op_add in E. rewrite Er in E. injection E as <-. exact C.
Qed.
Lemma addsub_assign_small s n x y : small n x -> small n y -> spends (addsub_assign_c 3 s x (Some y)) (sum n) (small (n + 1)).
Proof.
  intros Sx Sy. pose proof (small_pos _ _ Sx) as N. destruct Sx as [Cx Lx], Sy as [Cy Ly]. destruct (addsub_assign_sp 1 s x (Some y) n N Lx Ly) as [H1 H2]. split; [unfold sum; lia|].
  intros r Er. split; [|exact (H2 r Er)]. rewrite addsub_assign_e in Er. destruct (addsub_assign_ok s x (Some y)) as (r' & E & C & _); auto.
  - intros z Ez. injection Ez as <-. auto.
  - rewrite Er in E. injection E as <-. exact C.
Qed.
Lemma mul_assign_small n x o : small n x -> small n (rd x o) -> spends (mul_assign_c x o) (product n) (fun r => okrep r /\ len (bins r) <= 2 * n).
Proof.
  intros Sx Sy. pose proof (small_pos _ _ Sx) as N. destruct Sx as [Cx Lx], Sy as [Cy Ly]. pose proof (len_nonneg (bins x)) as Px. pose proof (len_nonneg (bins (rd x o))) as Py. split.
  - eapply Z.le_trans; [apply (mul_assign_sp x o); auto|]. set (u := len (bins x)) in *. set (v := len (bins (rd x o))) in *.
    assert (v * (u * u + 8 * u + v + 6) <= n * (n * n + 8 * n + n + 6)) by (apply Z.mul_le_mono_nonneg; nia). unfold product. replace (n ^ 3) with (n * n * n) by ring. replace (n ^ 2) with (n * n) by ring. lia.
  - intros r Er. rewrite mul_assign_e in Er.
    destruct (mul_assign_ok x o) as (r' & E & W & V & _ & T & T0); auto; [intros y ->; auto|]. rewrite Er in E. injection E as <-.
    destruct (Z.eq_dec (aval x) 0) as [X0|X0].
    + assert (V0 : val r = 0). { assert (val x = 0) by (pose proof (abs_val x ltac:(auto)); lia). rewrite V, H. reflexivity. }
      split; [split; [exact W|]; intros A; pose proof (abs_val r W); lia|]. rewrite (T0 X0), len_repeat. unfold len, size in *. lia.
    + specialize (T ltac:(auto) ltac:(auto) (or_introl X0)). split; [split; auto|]. pose proof (product_len x (rd x o) r ltac:(auto) ltac:(auto) T W V). lia.
Qed.
Lemma okrep_small n x : small n x -> okrep x /\ len (bins x) <= n. Proof. intros [C L]. auto. Qed.
Lemma make_small n t b : small n t -> small n b -> spends (Frac_make_c t b) (3 * n + reduction n) (fun _ => True).
Proof. intros [Ct Lt] [Cb Lb]. apply Frac_make_sp; auto. Qed.
Ltac more n P := pose proof (product_pos n ltac:(lia)); pose proof (reduction_pos (2 * n) ltac:(lia)); pose proof (reduction_pos (2 * n + 1) ltac:(lia)); pose proof (reduction_pos n ltac:(lia)); unfold sum in *.

Section Frac.
Variables (n : Z) (x y : Frac) (a : Int).
Hypotheses (Hx : fsmall n x) (Hy : fsmall n y) (Ha : small n a).
Local Lemma N1 : 1 <= n. Proof. exact (small_pos _ _ (proj1 Hx)). Qed.
Lemma F_addsub_sp s : spends (F_addsub_c (addsub_c 3 s) x y) (product n + (product n + (sum (2 * n) + (product n + (3 * (2 * n + 1) + reduction (2 * n + 1)))))) (fun _ => True).
Proof.
  destruct Hx as [Tx Bx], Hy as [Ty By]. pose proof N1. more n I. unfold F_addsub_c.
  eapply sp_bind; [apply mul_small; eauto|lia|intros u Su]. eapply sp_bind; [apply mul_small; eauto|lia|intros v Sv].
  eapply sp_bind; [apply (addsub_small s (2 * n)); auto|lia|intros t St]. eapply sp_bind; [apply mul_small; eauto|lia|intros d Sd].
  apply make_small; [exact St|apply (small_le _ _ _ Sd); lia].
Qed.
Lemma F_mul_sp : spends (F_mul_c x y) (product n + (product n + (3 * (2 * n) + reduction (2 * n)))) (fun _ => True).
Proof.
  destruct Hx as [Tx Bx], Hy as [Ty By]. pose proof N1. more n I. unfold F_mul_c.
  eapply sp_bind; [apply mul_small; eauto|lia|intros u Su]. eapply sp_bind; [apply mul_small; eauto|lia|intros v Sv]. apply make_small; auto.
Qed.
Lemma F_div_sp : spends (F_div_c x y) (product n + (product n + (3 * (2 * n) + reduction (2 * n)))) (fun _ => True).
Proof.
  destruct Hx as [Tx Bx], Hy as [Ty By]. pose proof N1. more n I. unfold F_div_c.
  eapply sp_bind; [apply mul_small; eauto|lia|intros u Su]. eapply sp_bind; [apply mul_small; eauto|lia|intros v Sv]. apply make_small; auto.
Qed.
Lemma IF_addsub_sp s : spends (IF_addsub_c (addsub_c 3 s) a x) (product n + (sum (2 * n) + (3 * (2 * n + 1) + reduction (2 * n + 1)))) (fun _ => True).
Proof.
  destruct Hx as [Tx Bx]. pose proof N1. more n I. unfold IF_addsub_c.
  eapply sp_bind; [apply mul_small; eauto|lia|intros u Su]. eapply sp_bind; [apply (addsub_small s (2 * n)); [exact Su|apply (small_le _ _ _ Tx); lia]|lia|intros t St].
  apply make_small; [exact St|apply (small_le _ _ _ Bx); lia].
Qed.
Lemma FI_addsub_sp s : spends (FI_addsub_c (addsub_c 3 s) x a) (product n + (sum (2 * n) + (3 * (2 * n + 1) + reduction (2 * n + 1)))) (fun _ => True).
Proof.
  destruct Hx as [Tx Bx]. pose proof N1. more n I. unfold FI_addsub_c.
  eapply sp_bind; [apply mul_small; eauto|lia|intros u Su]. eapply sp_bind; [apply (addsub_small s (2 * n)); [apply (small_le _ _ _ Tx); lia|exact Su]|lia|intros t St].
  apply make_small; [exact St|apply (small_le _ _ _ Bx); lia].
Qed.
Lemma FI_muldiv_sp : spends (IF_mul_c a x) (product n + (3 * (2 * n) + reduction (2 * n))) (fun _ => True) /\ spends (IF_div_c a x) (product n + (3 * (2 * n) + reduction (2 * n))) (fun _ => True) /\
  spends (FI_mul_c x a) (product n + (3 * (2 * n) + reduction (2 * n))) (fun _ => True) /\ spends (FI_div_c x a) (product n + (3 * (2 * n) + reduction (2 * n))) (fun _ => True).
Proof.
  destruct Hx as [Tx Bx]. pose proof N1. more n I.
  splits; (eapply sp_bind; [apply mul_small; eauto|lia|intros u Su; apply make_small; first [exact Su|eapply small_le; [eassumption|lia]]]).
Qed.
Lemma reciprocal_sp : spends (reciprocal_c x) (3 * n + reduction n) (fun _ => True).
Proof. destruct Hx as [Tx Bx]. apply make_small; auto. Qed.
Lemma F_lt_sp : spends (F_lt_c x y) (product n + (product n + 2 * (2 * n))) (fun _ => True).
Proof.
  destruct Hx as [Tx Bx], Hy as [Ty By]. pose proof N1. more n I. unfold F_lt_c.
  eapply sp_bind; [apply mul_small; eauto|lia|intros u [_ Su]]. eapply sp_bind; [apply mul_small; eauto|lia|intros v [_ Sv]]. apply lt_sp; auto. lia.
Qed.
Lemma eq_sp u v : small n u -> small n v -> spends (eq_c u v) (2 * n) (fun _ => True).
Proof.
  intros Su Sv. pose proof N1. unfold eq_c. apply (sp_weak _ (2 * n + 0) _ (fun _ => True)); [eapply sp_bind; [apply (cmp_sp u v n); [lia|apply Su|apply Sv]|lia|intros c _; apply sp_free; auto]|lia|auto].
Qed.
Lemma F_eq_sp : spends (F_eq_c x y) (2 * n + 2 * n) (fun _ => True).
Proof.
  destruct Hx as [Tx Bx], Hy as [Ty By]. pose proof N1. unfold F_eq_c. eapply sp_bind; [apply eq_sp; auto|lia|]. intros [] _; [apply eq_sp; auto|].
  apply (sp_weak _ 0 _ (fun _ => True)); [apply sp_free; auto|lia|auto].
Qed.
(** in place *)
Lemma FI_addsub_assign_sp s : spends (FI_addsub_assign_c (addsub_assign_c 3 s) x a) (product n + (sum (2 * n) + reduction (2 * n + 1))) (fun _ => True).
Proof.
  destruct Hx as [Tx Bx]. pose proof N1. more n I. unfold FI_addsub_assign_c.
  eapply sp_bind; [apply mul_small; eauto|lia|intros u Su]. eapply sp_bind; [apply (addsub_assign_small s (2 * n)); [apply (small_le _ _ _ Tx); lia|exact Su]|lia|intros t St].
  destruct St as [Ct Lt], Bx as [Cb Lb]. eapply sp_weak; [apply (normalize_sp _ (2 * n + 1)); cbn [top bot]; auto; lia|lia|auto].
Qed.
Lemma FI_muldiv_assign_sp : spends (FI_mul_assign_c x a) (product n + reduction (2 * n)) (fun _ => True) /\ spends (FI_div_assign_c x a) (product n + reduction (2 * n)) (fun _ => True).
Proof.
  destruct Hx as [Tx Bx]. pose proof N1. more n I. destruct (okrep_small _ _ Tx), (okrep_small _ _ Bx).
  split; (eapply sp_bind; [apply (mul_assign_small n _ (Some a)); auto|lia|intros u [Ou Lu]; eapply sp_weak; [apply (normalize_sp _ (2 * n)); cbn [top bot]; auto; lia|lia|auto]]).
Qed.
End Frac.
Section Assign.
Variables (n : Z) (x : Frac) (o : option Frac).
Hypotheses (Hx : fsmall n x) (Ho : fsmall n (rd x o)).
Local Lemma N2 : 1 <= n. Proof. exact (small_pos _ _ (proj1 Hx)). Qed.
Lemma rd_bot_of : rd (bot x) (bot_of o) = bot (rd x o). Proof. destruct o; reflexivity. Qed.
Lemma rd_top_of : rd (top x) (top_of o) = top (rd x o). Proof. destruct o; reflexivity. Qed.
Lemma F_addsub_assign_sp s : spends (F_addsub_assign_c (addsub_c 3 s) x o) (product n + (product n + (sum (2 * n) + (product n + reduction (2 * n + 1))))) (fun _ => True).
Proof.
  destruct Hx as [Tx Bx], Ho as [Ty By]. pose proof N2. more n I. unfold F_addsub_assign_c.
  eapply sp_bind; [apply mul_small; eauto|lia|intros u Su]. eapply sp_bind; [apply mul_small; eauto|lia|intros v Sv].
  eapply sp_bind; [apply (addsub_small s (2 * n)); auto|lia|intros t [Ct Lt]]. eapply sp_bind; [apply mul_assign_small; [exact Bx|rewrite rd_bot_of; exact By]|lia|intros d [Od Ld]].
  eapply sp_weak; [apply (normalize_sp _ (2 * n + 1)); cbn [top bot]; auto; lia|lia|auto].
Qed.
Lemma F_mul_assign_sp : spends (F_mul_assign_c x o) (product n + (product n + reduction (2 * n))) (fun _ => True).
Proof.
  destruct Hx as [Tx Bx], Ho as [Ty By]. pose proof N2. more n I. unfold F_mul_assign_c.
  eapply sp_bind; [apply mul_assign_small; [exact Tx|rewrite rd_top_of; exact Ty]|lia|intros t [Ot Lt]].
  eapply sp_bind; [apply mul_assign_small; [exact Bx|rewrite rd_bot_of; exact By]|lia|intros d [Od Ld]].
  eapply sp_weak; [apply (normalize_sp _ (2 * n)); cbn [top bot]; auto; lia|lia|auto].
Qed.
Lemma F_div_assign_sp : spends (F_div_assign_c x o) (n + (product n + (product n + reduction (2 * n)))) (fun _ => True).
Proof.
  destruct Hx as [Tx Bx], Ho as [Ty By]. pose proof N2. more n I. unfold F_div_assign_c.
  eapply sp_bind; [apply copy_sp, Ty|lia|intros tmp <-].
  eapply sp_bind; [apply (mul_assign_small n _ (Some (bot (rd x o)))); [exact Tx|exact By]|lia|intros t [Ot Lt]].
  eapply sp_bind; [apply (mul_assign_small n _ (Some (top (rd x o)))); [exact Bx|exact Ty]|lia|intros d [Od Ld]].
  eapply sp_weak; [apply (normalize_sp _ (2 * n)); cbn [top bot]; auto; lia|lia|auto].
Qed.
End Assign.

(** *** Powers *)
Lemma exponent_sp a : wf a -> spends (if is_negative a then op_neg_c a else free (Ok a)) (2 * len (bins a)) (fun e => wf e /\ nonneg e /\ bins e = bins a).
Proof.
  intros W. unfold is_negative. pose proof (len_nonneg (bins a)). pose proof (len_pos a W). destruct (negative a) eqn:E.
  - destruct (op_neg_sp a (len (bins a)) ltac:(lia) ltac:(lia)) as [H1 _]. split; [exact H1|]. rewrite op_neg_e. intros e Ee.
    destruct (op_neg_nonneg a W E) as (e' & E1 & W1 & N1 & _ & B1). rewrite Ee in E1. injection E1 as <-. auto.
  - apply (sp_weak _ 0 _ (eq a)); [apply sp_ok; reflexivity|lia|]. intros e <-. auto.
Qed.
Lemma power_mono s s' e l : 0 <= s <= s' -> 0 <= l -> power s e l <= power s' e l.
Proof. intros H L. pose proof (work_mono s s' H) as W. unfold work in W. unfold power. lia. Qed.
Lemma pow_small n x y : small n x -> wf y -> nonneg y -> spends (op_pow_c x y) (power (aval y * n) (aval y) (len (bins y))) (small (Z.max 1 (aval y * n))).
Proof.
  intros [Cx Lx] Wy Ny. pose proof (len_nonneg (bins x)). pose proof (aval_nonneg y Wy). eapply sp_weak; [apply op_pow_sp; auto|apply power_mono; [nia|apply len_nonneg]|].
  intros r [C L]. split; [exact C|]. nia.
Qed.
Lemma aval_eq (a b : Int) : bins a = bins b -> aval a = aval b. Proof. unfold aval. intros ->. reflexivity. Qed.
Definition power_of (n e l : Z) : Z := 2 * l + (power (e * n) e l + (power (e * n) e l + (3 * Z.max 1 (e * n) + reduction (Z.max 1 (e * n))))).
Lemma F_pow_sp n x a : fsmall n x -> wf a -> spends (F_pow_c x a) (power_of n (aval a) (len (bins a))) (fun _ => True).
Proof.
  intros [Tx Bx] W. unfold power_of. set (e := aval a). set (l := len (bins a)). assert (E : 0 <= e) by (apply aval_nonneg, W). assert (Pl : 0 <= l) by apply len_nonneg. pose proof (small_pos _ _ Tx) as N.
  pose proof (power_pos (e * n) e l ltac:(nia) Pl) as PP. set (s := Z.max 1 (e * n)). pose proof (reduction_pos s ltac:(lia)) as PR.
  assert (PW : forall z, small n z -> forall y, wf y -> nonneg y -> bins y = bins a -> spends (op_pow_c z y) (power (e * n) e l) (small s)).
  { intros z Sz y Wy Ny By. pose proof (pow_small n z y Sz Wy Ny) as G. rewrite (aval_eq y a By), By in G. exact G. }
  pose proof (exponent_sp a W) as X. unfold F_pow_c. destruct (is_negative a) eqn:Na.
  - eapply sp_bind; [exact X|lia|intros y (Wy & Ny & By)]. eapply sp_bind; [apply PW; auto|lia|intros t St]. eapply sp_bind; [apply PW; auto|lia|intros b Sb]. apply make_small; auto.
  - eapply sp_weak; [eapply (sp_bind _ _ (power (e * n) e l) (power (e * n) e l + (3 * s + reduction s))); [apply PW; auto|lia|intros t St]|fold l; lia|auto].
    eapply sp_bind; [apply PW; auto|lia|intros b Sb]. apply make_small; auto.
Qed.
Lemma F_pow_assign_sp n x a : fsmall n x -> wf a -> spends (F_pow_assign_c x a) (power_of n (aval a) (len (bins a))) (fun _ => True).
Proof.
  intros [Tx Bx] W. unfold power_of. set (e := aval a). set (l := len (bins a)). assert (E : 0 <= e) by (apply aval_nonneg, W). assert (Pl : 0 <= l) by apply len_nonneg. pose proof (small_pos _ _ Tx) as N.
  pose proof (power_pos (e * n) e l ltac:(nia) Pl) as PP. set (s := Z.max 1 (e * n)). pose proof (reduction_pos s ltac:(lia)) as PR.
  assert (PW : forall z, small n z -> forall y, wf y -> nonneg y -> bins y = bins a -> spends (op_pow_c z y) (power (e * n) e l) (small s)).
  { intros z Sz y Wy Ny By. pose proof (pow_small n z y Sz Wy Ny) as G. rewrite (aval_eq y a By), By in G. exact G. }
  pose proof (exponent_sp a W) as X. unfold F_pow_assign_c, pow_assign_c. cbn [rd].
  eapply sp_bind; [exact X|lia|intros y (Wy & Ny & By)]. eapply sp_bind; [apply PW; auto|lia|intros t [Ct Lt]]. eapply sp_bind; [apply PW; auto|lia|intros b [Cb Lb]].
  eapply sp_weak; [apply (normalize_sp _ s); cbn [top bot]; auto|lia|auto].
Qed.
