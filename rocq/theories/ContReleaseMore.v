(** All of Vec and Mat with an element type whose operators run alike with and without
    assertions; what Vec /= a leaves behind. *)
From Coq Require Import Lia.
From Verif Require Import Base IntModel IntSpec IntBasics IntDiv ElemModel ElemSpec ElemProofs VecModel MatModel LeaveModel SimSpec SimProofs
  ReleaseModel ReleaseSpec ReleaseProofs ReleaseProofs2 ContReleaseModel ContReleaseSpec ContReleaseProofs ContReleaseInst.
Local Open Scope nat_scope.

Lemma alike_run {T A} (E E' : ops T) (P : A -> Prop) f : alike (same P) (f E) (f E') -> released_run E E' f.
Proof. intros H. unfold released_run. rewrite (alike_released _ _ _ H). destruct (f E); reflexivity. Qed.
Lemma alike_run_eq {T A} (E E' : ops T) (f : ops T -> res A) : alike eq (f E) (f E') -> released_run E E' f.
Proof. intros H. unfold released_run. rewrite (alike_eq _ _ H). destruct (f E); reflexivity. Qed.
Lemma same_vec {A} (P : A -> Prop) x : Forall P x -> vec_sim (same P) x x.
Proof. intros H. induction H; constructor; auto. split; auto. Qed.
Lemma vec_same_inv {A} (P : A -> Prop) x y : vec_sim (same P) x y -> same (Forall P) x y.
Proof. intros H. induction H as [|a b x y [-> Ha] H [-> IH]]; split; auto. Qed.
Lemma same_mat {A} (P : A -> Prop) m : entries P m -> mat_alike (same P) m m.
Proof.
  intros H. split; [reflexivity|]. split; [reflexivity|]. unfold entries in H. induction H as [|o l (a & -> & Ha) H IH]; constructor; auto. split; auto.
Qed.
Lemma mat_same_inv {A} (P : A -> Prop) x y : mat_alike (same P) x y -> y = x.
Proof.
  destruct x as [r c l], y as [r' c' l']. intros (H1 & H2 & H3). cbn in *. subst r' c'. f_equal.
  induction H3 as [|a b x y Hab H IH]; auto. rewrite IH. f_equal. apply opt_same in Hab as [H' _]. exact H'.
Qed.
Lemma alike_mat {A} (P : A -> Prop) m m' : alike (mat_alike (same P)) m m' -> m' = released m.
Proof.
  intros H. destruct m as [a|e| | |], m' as [b|e'| | |]; cbn in *; try contradiction; try congruence.
  - apply mat_same_inv in H. congruence.
  - destruct e'; try contradiction. reflexivity.
Qed.
Lemma alike_vec {A} (P : A -> Prop) m m' : alike (vec_sim (same P)) m m' -> m' = released m.
Proof.
  intros H. destruct m as [a|e| | |], m' as [b|e'| | |]; cbn in *; try contradiction; try congruence.
  - apply vec_same_inv in H as [H _]. congruence.
  - destruct e'; try contradiction. reflexivity.
Qed.
Lemma run_mat {T A} (E E' : ops T) (P : A -> Prop) f : alike (mat_alike (same P)) (f E) (f E') -> released_run E E' f.
Proof. intros H. unfold released_run. rewrite (alike_mat _ _ _ H). destruct (f E); reflexivity. Qed.
Lemma run_vec {T A} (E E' : ops T) (P : A -> Prop) f : alike (vec_sim (same P)) (f E) (f E') -> released_run E E' f.
Proof. intros H. unfold released_run. rewrite (alike_vec _ _ _ H). destruct (f E); reflexivity. Qed.
Lemma opt_vec_same {A} (P : A -> Prop) o : opt_all (Forall P) o -> option_rel (vec_sim (same P)) o o.
Proof. destruct o; cbn; auto. apply same_vec. Qed.
Lemma opt_mat_same {A} (P : A -> Prop) o : opt_all (entries P) o -> option_rel (mat_alike (same P)) o o.
Proof. destruct o; cbn; auto. apply same_mat. Qed.
Lemma scalar_same {A} (P : A -> Prop) s : own_or P s -> scalar_sim (same P) s s.
Proof. destruct s; cbn; auto. intros. split; auto. Qed.
Lemma mscalar_same {A} (P : A -> Prop) s : mown_or P s -> mscalar_sim (same P) s s.
Proof. destruct s; cbn; auto. intros. split; auto. Qed.
Lemma entries_mono {A} (P Q : A -> Prop) m : (forall x, P x -> Q x) -> entries P m -> entries Q m.
Proof. intros H. unfold entries. apply Forall_impl. intros o (x & -> & Hx). eauto. Qed.
Lemma own_mono {A} (P Q : A -> Prop) s : (forall x, P x -> Q x) -> own_or P s -> own_or Q s.
Proof. intros H. destruct s; cbn; auto. Qed.
Lemma mown_mono {A} (P Q : A -> Prop) s : (forall x, P x -> Q x) -> mown_or P s -> mown_or Q s.
Proof. intros H. destruct s; cbn; auto. Qed.

Section All.
Context {T : Type} (P P0 : T -> Prop) (E E' : ops T).
Hypothesis HR : ring_alike (same P) E E'.
Hypothesis HD : div_alike (same P) E E'.
Hypothesis HP : prod_alike (same P) (same P0) E E'.
Hypothesis HM : forall x y, P0 x -> opt_all P0 y -> alike (same P0) (mulA E x y) (mulA E' x y).
Let HM' : forall a b a' b', same P0 a a' -> option_rel (same P0) b b' -> alike (same P0) (mulA E a b) (mulA E' a' b').
Proof. intros a b a' b' [-> Ha] Hb. apply opt_same in Hb as [-> Hb]. apply HM; auto. Qed.
Let H0 : forall x, P x -> P0 x.
Proof. intros x Hx. apply (al_weaker _ _ _ _ HP x x). split; auto. Qed.

Lemma vec_runs x y z o a s : Forall P x -> Forall P y -> Forall P z -> opt_all (Forall P) o -> P a -> own_or P s ->
  released_run E E' (fun E => V_add E x y) /\ released_run E E' (fun E => V_sub E x y) /\
  released_run E E' (fun E => final (V_add_assign E x o)) /\ released_run E E' (fun E => final (V_sub_assign E x o)) /\
  released_run E E' (fun E => V_scale E a x) /\ released_run E E' (fun E => V_mul E x a) /\ released_run E E' (fun E => V_div E x a) /\
  released_run E E' (fun E => final (V_mul_assign E x s)) /\ released_run E E' (fun E => final (V_div_assign E x s)) /\
  released_run E E' (fun E => dot E x y) /\ released_run E E' (fun E => cross E x y) /\
  released_run E E' (fun E => scalar_triple_product E x y z) /\ released_run E E' (fun E => vector_triple_product E x y z) /\
  released_run E E' (fun E => V_eq E x y) /\ released_run E E' (fun E => V_ne E x y).
Proof.
  intros Hx Hy Hz Ho Ha Hs. pose proof (same_vec _ _ Hx) as Vx. pose proof (same_vec _ _ Hy) as Vy. pose proof (same_vec _ _ Hz) as Vz.
  assert (Vx0 : vec_sim (same P0) x x) by (apply same_vec; eapply Forall_impl; [|exact Hx]; auto).
  assert (Sc : forall v, own_or P0 v -> alike (vec_sim (same P0)) (final (V_mul_assign E x v)) (final (V_mul_assign E' x v))).
  { intros v Hv. apply scale_assign_alike; auto. apply scalar_same, Hv. }
  assert (Sd : forall v, own_or P v -> alike (vec_sim (same P)) (final (V_div_assign E x v)) (final (V_div_assign E' x v))).
  { intros v Hv. apply scale_assign_alike; auto; [apply (al_divA _ _ _ HD)|apply scalar_same, Hv]. }
  repeat match goal with |- _ /\ _ => split end.
  - eapply run_vec. apply (vec_binary_alike (same P)); auto. apply (al_addA _ _ _ HR).
  - eapply run_vec. apply (vec_binary_alike (same P)); auto. apply (al_subA _ _ _ HR).
  - eapply run_vec. apply (vec_assign_alike (same P)); auto; [apply (al_addA _ _ _ HR)|apply opt_vec_same, Ho].
  - eapply run_vec. apply (vec_assign_alike (same P)); auto; [apply (al_subA _ _ _ HR)|apply opt_vec_same, Ho].
  - eapply run_vec. apply Sc. cbn; auto.
  - eapply run_vec. apply Sc. cbn; auto.
  - eapply run_vec. apply Sd. cbn; auto.
  - eapply run_vec. apply Sc. eapply own_mono; [|exact Hs]; auto.
  - eapply run_vec. apply Sd, Hs.
  - eapply alike_run. apply dot_alike; eauto.
  - eapply run_vec. apply cross_alike; eauto.
  - eapply alike_run. unfold scalar_triple_product. eapply alike_bind; [apply cross_alike; eauto|]. intros c c' Hc. apply dot_alike; eauto.
  - eapply run_vec. unfold vector_triple_product. eapply alike_bind; [apply cross_alike; eauto|]. intros c c' Hc. apply cross_alike; eauto.
  - apply alike_run_eq. eapply V_eq_alike; eauto.
  - apply alike_run_eq. unfold V_ne. eapply alike_bind; [eapply V_eq_alike; eauto|]. intros b b' <-. reflexivity.
Qed.

Lemma mat_runs x y o a s : entries P x -> entries P y -> opt_all (entries P) o -> P a -> mown_or P s ->
  released_run E E' (fun E => M_add E x y) /\ released_run E E' (fun E => M_sub E x y) /\
  released_run E E' (fun E => final (M_add_assign E x o)) /\ released_run E E' (fun E => final (M_sub_assign E x o)) /\
  released_run E E' (fun E => M_scale E a x) /\ released_run E E' (fun E => M_scale_r E x a) /\ released_run E E' (fun E => M_div E x a) /\
  released_run E E' (fun E => final (M_mul_assign E x s)) /\ released_run E E' (fun E => final (M_div_assign E x s)) /\
  released_run E E' (fun E => M_product E x y) /\ released_run E E' (fun E => final (M_product_assign E x o)) /\
  released_run E E' (fun E => M_eq E x y) /\ released_run E E' (fun E => M_ne E x y) /\ released_run E E' (fun E => trace E x).
Proof.
  intros Hx Hy Ho Ha Hs. pose proof (same_mat _ _ Hx) as Vx. pose proof (same_mat _ _ Hy) as Vy. pose proof (opt_mat_same _ _ Ho) as Vo.
  assert (Vx0 : mat_alike (same P0) x x) by (apply same_mat; eapply entries_mono; [|exact Hx]; auto).
  assert (Sa : same P a a) by (split; auto).
  repeat match goal with |- _ /\ _ => split end.
  - eapply run_mat. eapply mat_binary_alike; eauto. apply (al_add _ _ _ HR).
  - eapply run_mat. eapply mat_binary_alike; eauto. apply (al_sub _ _ _ HR).
  - eapply run_mat. apply (mat_assign_alike (same P)); auto. apply (al_addA _ _ _ HR).
  - eapply run_mat. apply (mat_assign_alike (same P)); auto. apply (al_subA _ _ _ HR).
  - eapply run_mat. eapply M_scale_alike; eauto.
  - eapply run_mat. eapply M_scale_alike; eauto.
  - eapply run_mat. eapply M_div_alike; eauto.
  - eapply run_mat. apply (mat_scale_assign_alike (same P0)); auto. apply mscalar_same. eapply mown_mono; [|exact Hs]; auto.
  - eapply run_mat. apply (mat_scale_assign_alike (same P)); auto; [apply (al_divA _ _ _ HD)|apply mscalar_same, Hs].
  - eapply run_mat. eapply M_product_alike; eauto.
  - eapply run_mat. assert (V : mat_alike (same P) (rd x o) (rd x o)) by (destruct o; cbn; auto). pose proof (M_product_alike _ _ _ HR _ _ _ _ Vx V) as H.
    unfold M_product_assign. destruct (M_product E x (rd x o)) as [r|e| | |], (M_product E' x (rd x o)) as [r'|e'| | |]; cbn in *; try contradiction; eauto.
  - apply alike_run_eq. eapply M_eq_alike; eauto.
  - apply alike_run_eq. unfold M_ne. eapply alike_bind; [eapply M_eq_alike; eauto|]. intros b b' <-. reflexivity.
  - eapply alike_run. eapply trace_alike; eauto.
Qed.

Lemma elim_runs x i j : entries P x ->
  released_run E E' (fun E => M_neg E x) /\ released_run E E' (fun E => first_minor E x i j) /\ released_run E E' (fun E => cofactor E x i j) /\
  released_run E E' (fun E => row_cofactor_expansion E x) /\ released_run E E' (fun E => col_cofactor_expansion E x) /\
  released_run E E' (fun E => determinant E x) /\ released_run E E' (fun E => final (inplace_rref E x)) /\ released_run E E' (fun E => rref E x) /\
  released_run E E' (fun E => inverse E x).
Proof.
  intros Hx. pose proof (same_mat _ _ Hx) as Vx.
  repeat match goal with |- _ /\ _ => split end.
  - eapply run_mat. eapply M_neg_alike; eauto.
  - eapply run_mat. eapply first_minor_alike; eauto.
  - eapply run_mat. eapply cofactor_alike; eauto.
  - eapply alike_run. eapply row_cofactor_expansion_alike; eauto.
  - eapply alike_run. eapply col_cofactor_expansion_alike; eauto.
  - eapply alike_run. eapply determinant_alike; eauto.
  - eapply run_mat. eapply inplace_rref_alike; eauto.
  - eapply run_mat. eapply rref_alike; eauto.
  - eapply run_mat. eapply inverse_alike; eauto.
Qed.
End All.

(** *** What a vector is left with *)
Lemma replace_app {A} (p : list A) a r b : replace (p ++ a :: r) (length p) b = p ++ b :: r.
Proof. induction p as [|c p IH]; cbn; [reflexivity|]. rewrite IH. reflexivity. Qed.
Lemma get_at_app {A} (p : list A) a r : get_at (p ++ a :: r) (length p) = Ok a.
Proof. unfold get_at. rewrite nth_error_app2, Nat.sub_diag by lia. reflexivity. Qed.
(** elements are worked through in order up to the first one where op= does not return *)
Lemma worked {T} (op : lop T) (v : T) (done_ : list T) : forall todo a b,
  for_ (length todo) (length done_) (fun i d => assign_at' op d i (Some v)) (done_ ++ todo) = (a, b) ->
  (b = Ok tt /\ exists out, a = done_ ++ out /\ Forall2 (fun x y => op x (Some v) = (y, Ok tt)) todo out) \/
  (exists p x r out, todo = p ++ x :: r /\ Forall2 (fun x y => op x (Some v) = (y, Ok tt)) p out /\ snd (op x (Some v)) = b /\ b <> Ok tt /\
     a = done_ ++ out ++ fst (op x (Some v)) :: r).
Proof.
  intros todo. revert done_. induction todo as [|x r IH]; intros done_ a b H; cbn [length for_] in H.
  - injection H as <- <-. left. split; auto. exists []. split; auto.
  - unfold assign_at' in H at 1. rewrite get_at_app in H. cbn [eval] in H. rewrite replace_app in H. destruct (op x (Some v)) as [y e] eqn:Ex. cbn [fst snd] in H.
    destruct e as [[]|e| | |]; cbn [andthen] in H.
    2-5: right; exists [], x, r, []; injection H as <- <-; rewrite Ex; cbn; splits; auto; discriminate.
    specialize (IH (done_ ++ [y])). rewrite app_length in IH. cbn [length] in IH. rewrite Nat.add_1_r in IH. rewrite <- app_assoc in IH. cbn [app] in IH.
    destruct (IH _ _ H) as [(-> & out & -> & F)|(p & z & q & out & -> & F & Eb & Nb & ->)].
    + left. split; auto. exists (y :: out). rewrite <- app_assoc. split; auto.
    + right. exists (x :: p), z, q, (y :: out). rewrite <- !app_assoc. cbn. splits; auto.
Qed.

(** *** Whatever the operands *)
Lemma int_ring_keeps : ring_sim never eq Int_ops Int_ops_nd.
Proof.
  split; cbn [of_int fresh add sub mul neg eqb addA subA Int_ops Int_ops_nd]; try reflexivity.
  - intros x y x' y' <- <-. apply keeps_sim, op_add_keeps.
  - intros x y x' y' <- <-. apply keeps_sim, op_sub_keeps.
  - intros x y x' y' <- <-. apply keeps_sim, op_mul_keeps.
  - intros x x' <-. apply keeps_sim, keeps_refl.
  - intros x y x' y' <- <-. apply keeps_sim, keeps_refl.
  - intros x y x' y' <- Hy. replace y' with y by (destruct y, y'; cbn in Hy; congruence || contradiction). apply keeps_sim, add_assign_keeps.
  - intros x y x' y' <- Hy. replace y' with y by (destruct y, y'; cbn in Hy; congruence || contradiction). apply keeps_sim, sub_assign_keeps.
Qed.
Lemma int_div_keeps : div_sim never eq Int_ops Int_ops_nd.
Proof.
  split; cbn [div divA Int_ops Int_ops_nd].
  - intros x y x' y' <- <-. apply keeps_sim, op_div_keeps.
  - intros x y x' y' <- Hy. replace y' with y by (destruct y, y'; cbn in Hy; congruence || contradiction). apply keeps_sim, (op_div_keeps x (rd x y)).
Qed.
Lemma int_prod_keeps : prod_sim never eq eq Int_ops Int_ops_nd.
Proof.
  split; cbn [div mulA Int_ops Int_ops_nd]; auto.
  - intros x y x' y' <- <-. apply keeps_sim, mul_assign_keeps.
  - intros x y x' y' <- <-. apply keeps_sim, op_div_keeps.
Qed.
