(** Vec and Mat run alike on related element types. *)
From Verif Require Import Base IntModel ElemModel ElemSpec ElemProofs VecModel MatModel SimSpec.
Local Open Scope nat_scope.

Lemma sim_length {A B} {R : A -> B -> Prop} {x y} : Forall2 R x y -> length x = length y.
Proof. intros H. induction H; cbn; auto. Qed.

Section Basics.
Variable ab : halt -> Prop.
Section Gen.
Context {A B : Type}.
Lemma sim_ok (R : A -> B -> Prop) a b : R a b -> sim ab R (Ok a) (Ok b).
Proof. intros H x E. injection E as <-. apply ret_ok, H. Qed.
Lemma sim_fail (R : A -> B -> Prop) m m' : (forall a, m <> Ok a) -> sim ab R m m'.
Proof. intros H a E. contradiction (H a). Qed.
Lemma ssim_done (R : A -> B -> Prop) a b : R a b -> ssim ab R (done a) (done b).
Proof. intros H x E. injection E as <-. apply sret_done, H. Qed.
Lemma ssim_fail (R : A -> B -> Prop) s m p : m <> Ok tt -> ssim ab R (s, m) p.
Proof. intros H x E. injection E as _ E. contradiction. Qed.
Lemma sim_final (R : A -> B -> Prop) p p' : ssim ab R p p' -> sim ab R (final p) (final p').
Proof.
  intros H a E. apply ret_final, H. destruct p as [s r]. unfold final in E. cbn in E. destruct r as [[]| | | |]; try discriminate. cbn in E. injection E as ->. reflexivity.
Qed.
Lemma sim_mono (R R' : A -> B -> Prop) m m' : sim ab R m m' -> (forall a b, R a b -> R' a b) -> sim ab R' m m'.
Proof. intros H HR a E. eapply ret_mono; [apply H, E|]. auto. Qed.
End Gen.
Lemma sim_bind {A B A' B'} (R : A -> B -> Prop) (Q : A' -> B' -> Prop) m m' f f' :
  sim ab R m m' -> (forall a b, R a b -> sim ab Q (f a) (f' b)) -> sim ab Q (x <- m ;; f x) (x <- m' ;; f' x).
Proof. intros H K a E. destruct m as [x| | | |]; try discriminate. cbn in E. eapply ret_bind; [apply H; reflexivity|]. intros y Hy. eapply K; eauto. Qed.
Lemma ssim_eval {A B S S'} (R : A -> B -> Prop) (Q : S -> S' -> Prop) s s' m m' k k' :
  sim ab R m m' -> (forall a b, R a b -> ssim ab Q (k a) (k' b)) -> ssim ab Q (eval s m k) (eval s' m' k').
Proof. intros H K t E. destruct m as [x| | | |]; try discriminate. cbn in E. eapply sret_eval; [apply H; reflexivity|]. intros y Hy. eapply K; eauto. Qed.
Lemma ssim_andthen {S S'} (P Q : S -> S' -> Prop) p p' k k' :
  ssim ab P p p' -> (forall a b, P a b -> ssim ab Q (k a) (k' b)) -> ssim ab Q (andthen p k) (andthen p' k').
Proof.
  intros H K t E. destruct p as [x r]. destruct r as [[]| | | |]; cbn in E; try discriminate. eapply sret_andthen; [apply H; reflexivity|]. intros y Hy. eapply K; eauto.
Qed.
Lemma ssim_for {S S'} (Q : S -> S' -> Prop) n : forall a body body' s s', Q s s' ->
  (forall i t t', a <= i < a + n -> Q t t' -> ssim ab Q (body i t) (body' i t')) -> ssim ab Q (for_ n a body s) (for_ n a body' s').
Proof.
  induction n as [|n IH]; intros a body body' s s' H HB; cbn [for_]; [apply ssim_done, H|].
  eapply ssim_andthen; [apply HB; [lia|exact H]|]. intros t t' Ht. apply IH; [exact Ht|]. intros i u u' Hi. apply HB. lia.
Qed.
Lemma ssim_for2 {S S'} (Q : S -> S' -> Prop) r c body body' s s' : Q s s' ->
  (forall i j t t', i < r -> j < c -> Q t t' -> ssim ab Q (body i j t) (body' i j t')) -> ssim ab Q (for2 r c body s) (for2 r c body' s').
Proof.
  intros H HB. unfold for2. apply ssim_for; [exact H|]. intros i t t' Hi Ht. apply ssim_for; [exact Ht|]. intros j u u' Hj Hu. apply HB; auto; lia.
Qed.
End Basics.

Section Sim.
Context {A B : Type} (ab : halt -> Prop) (R : A -> B -> Prop) (E : ops A) (E' : ops B).
Hypothesis HR : ring_sim ab R E E'.
Hypothesis HD : div_sim ab R E E'.
Context (R0 : A -> B -> Prop).
Hypothesis HP : prod_sim ab R R0 E E'.
Local Notation VR := (vec_sim R).
Local Notation MR := (mat_sim R).

(** *** lists *)
Lemma get_at_sim x x' i : VR x x' -> sim ab R (get_at x i) (get_at x' i).
Proof.
  intros H. unfold get_at. revert i. induction H as [|a b x x' Hab Hx IH]; intros [|i]; cbn; try (apply sim_fail; discriminate); [apply sim_ok, Hab|apply IH].
Qed.
Lemma replace_sim {C D} (Q : C -> D -> Prop) x x' i a b : Forall2 Q x x' -> Q a b -> Forall2 Q (replace x i a) (replace x' i b).
Proof. intros H Hab. revert i. induction H as [|c d x x' Hcd Hx IH]; intros [|i]; cbn; constructor; auto. Qed.
Lemma repeat_sim {C D} (Q : C -> D -> Prop) a b n : Q a b -> Forall2 Q (repeat a n) (repeat b n).
Proof. intros H. induction n; cbn; constructor; auto. Qed.
Lemma const_sim k : k = 0%Z \/ k = 1%Z \/ k = (-1)%Z -> R (of_int E k) (of_int E' k).
Proof. intros H. apply (sim_const _ _ _ _ HR). cbn. intuition. Qed.
Lemma zero_sim : R (of_int E 0) (of_int E' 0).
Proof. apply const_sim. auto. Qed.
Lemma one_sim : R (of_int E 1) (of_int E' 1).
Proof. apply const_sim. auto. Qed.

(** *** Vec *)
Lemma assign_at_sim op op' x x' i y y' : (forall a b a' b', R a a' -> option_rel R b b' -> sim ab R (op a b) (op' a' b')) ->
  VR x x' -> option_rel R y y' -> ssim ab VR (assign_at op x i y) (assign_at op' x' i y').
Proof.
  intros Hop Hx Hy. unfold assign_at. eapply ssim_eval.
  - eapply sim_bind; [apply get_at_sim, Hx|]. intros a b Hab. apply Hop; auto.
  - intros a b Hab. apply ssim_done, replace_sim; auto.
Qed.
Lemma vec_binary_sim op op' x x' y y' : (forall a b a' b', R a a' -> option_rel R b b' -> sim ab R (op a b) (op' a' b')) ->
  VR x x' -> VR y y' -> sim ab VR (vec_binary op x y) (vec_binary op' x' y').
Proof.
  intros Hop Hx Hy. unfold vec_binary. rewrite <- (sim_length Hx), <- (sim_length Hy). destruct (negb _); [apply sim_fail; discriminate|].
  apply sim_final, ssim_for; [exact Hx|]. intros i t t' _ Ht. eapply ssim_eval; [apply get_at_sim, Hy|]. intros a b Hab. apply assign_at_sim; auto.
Qed.
Lemma vec_assign_sim op op' x x' y y' : (forall a b a' b', R a a' -> option_rel R b b' -> sim ab R (op a b) (op' a' b')) ->
  VR x x' -> option_rel VR y y' -> ssim ab VR (vec_assign op x y) (vec_assign op' x' y').
Proof.
  intros Hop Hx Hy. unfold vec_assign.
  assert (L : length (rd x y) = length (rd x' y')).
  { destruct y as [y|], y' as [y'|]; cbn in *; try contradiction; [apply (sim_length Hy)|apply (sim_length Hx)]. }
  rewrite <- L, <- (sim_length Hx). destruct (negb _); [apply ssim_fail; discriminate|].
  apply ssim_for; [exact Hx|]. intros i t t' _ Ht. eapply ssim_eval.
  - destruct y as [y|], y' as [y'|]; cbn in *; try contradiction; [apply get_at_sim, Hy|apply get_at_sim, Ht].
  - intros a b Hab. apply assign_at_sim; auto.
Qed.
Lemma scale_assign_sim op op' x x' s s' : (forall a b a' b', R a a' -> option_rel R b b' -> sim ab R (op a b) (op' a' b')) ->
  VR x x' -> scalar_sim R s s' -> ssim ab VR (scale_assign op x s) (scale_assign op' x' s').
Proof.
  intros Hop Hx Hs. unfold scale_assign. rewrite <- (sim_length Hx). apply ssim_for; [exact Hx|]. intros i t t' _ Ht.
  destruct s as [a|k], s' as [a'|k']; cbn in Hs; try contradiction; [apply assign_at_sim; auto|subst k'].
  destruct (i =? k); [apply assign_at_sim; cbn; auto|]. eapply ssim_eval; [apply get_at_sim, Ht|]. intros a b Hab. apply assign_at_sim; auto.
Qed.
Lemma dot_sim x x' y y' : VR x x' -> VR y y' -> sim ab R (dot E x y) (dot E' x' y').
Proof.
  intros Hx Hy. unfold dot. rewrite <- (sim_length Hx), <- (sim_length Hy). destruct (negb _); [apply sim_fail; discriminate|].
  apply sim_final, ssim_for; [apply zero_sim|]. intros i t t' _ Ht. eapply ssim_eval; [|intros a b Hab; apply ssim_done, Hab].
  eapply sim_bind; [apply get_at_sim, Hx|]. intros a a' Ha. eapply sim_bind; [apply get_at_sim, Hy|]. intros b b' Hb.
  eapply sim_bind; [apply (sim_mul _ _ _ _ HR); eauto|]. intros p p' Hp. apply (sim_addA _ _ _ _ HR); auto.
Qed.
Lemma minor_sim x x' y y' i j : VR x x' -> VR y y' -> sim ab R (minor E x y i j) (minor E' x' y' i j).
Proof.
  intros Hx Hy. unfold minor. eapply sim_bind; [apply get_at_sim, Hx|]. intros a a' Ha. eapply sim_bind; [apply get_at_sim, Hy|]. intros b b' Hb.
  eapply sim_bind; [apply (sim_mul _ _ _ _ HR); eauto|]. intros p p' Hp.
  eapply sim_bind; [apply get_at_sim, Hx|]. intros c c' Hc. eapply sim_bind; [apply get_at_sim, Hy|]. intros d d' Hd.
  eapply sim_bind; [apply (sim_mul _ _ _ _ HR); eauto|]. intros q q' Hq. apply (sim_sub _ _ _ _ HR); auto.
Qed.
Lemma cross_sim x x' y y' : VR x x' -> VR y y' -> sim ab VR (cross E x y) (cross E' x' y').
Proof.
  intros Hx Hy. unfold cross. rewrite <- (sim_length Hx), <- (sim_length Hy). destruct (negb _); [apply sim_fail; discriminate|].
  eapply sim_bind; [apply minor_sim; eauto|]. intros a a' Ha. eapply sim_bind; [apply minor_sim; eauto|]. intros b b' Hb.
  eapply sim_bind; [apply minor_sim; eauto|]. intros c c' Hc. cbn. apply sim_ok. repeat constructor; auto.
Qed.
Lemma eq_loop_sim x x' y y' : VR x x' -> VR y y' -> forall n i, sim ab eq (eq_loop E n i x y) (eq_loop E' n i x' y').
Proof.
  intros Hx Hy. induction n as [|n IH]; intros i; cbn [eq_loop]; [apply sim_ok; auto|].
  eapply sim_bind; [apply get_at_sim, Hx|]. intros a a' Ha. eapply sim_bind; [apply get_at_sim, Hy|]. intros b b' Hb.
  eapply sim_bind; [apply (sim_eqb _ _ _ _ HR); eauto|]. intros e e' <-. destruct e; [apply IH|apply sim_ok; auto].
Qed.
Lemma V_eq_sim x x' y y' : VR x x' -> VR y y' -> sim ab eq (V_eq E x y) (V_eq E' x' y').
Proof.
  intros Hx Hy. unfold V_eq. rewrite <- (sim_length Hx), <- (sim_length Hy). destruct (negb _); [apply sim_ok; auto|apply eq_loop_sim; auto].
Qed.

(** *** Mat *)
Lemma read_sim p p' k : Forall2 (opt R) p p' -> sim ab R (read p k) (read p' k).
Proof.
  intros H. unfold read. revert k. induction H as [|a b x x' Hab Hx IH]; intros [|k]; cbn; try (apply sim_fail; discriminate).
  - destruct a as [a|]; [|apply sim_fail; discriminate]. destruct b as [b|]; [apply sim_ok, Hab|contradiction].
  - apply IH.
Qed.
Lemma entry_sim m m' i j : MR m m' -> sim ab R (entry m i j) (entry m' i j).
Proof. intros (Hr & Hc & Hd). unfold entry, offset. rewrite Hc. apply read_sim, Hd. Qed.
Lemma set_entry_sim m m' i j x x' : MR m m' -> R x x' -> ssim ab MR (set_entry m i j x) (set_entry m' i j x').
Proof.
  intros (Hr & Hc & Hd) Hx. unfold set_entry, offset. rewrite Hc, <- (sim_length Hd). destruct (_ <? _); [|apply ssim_fail; discriminate].
  apply ssim_done. split; [exact Hr|]. split; [reflexivity|]. cbn. apply replace_sim; auto.
Qed.
Lemma assign_entry_sim op op' m m' i j y y' : (forall a b a' b', R a a' -> option_rel R b b' -> sim ab R (op a b) (op' a' b')) ->
  MR m m' -> option_rel R y y' -> ssim ab MR (assign_entry op m i j y) (assign_entry op' m' i j y').
Proof.
  intros Hop Hm Hy. unfold assign_entry. eapply ssim_eval.
  - eapply sim_bind; [apply entry_sim, Hm|]. intros a b Hab. apply Hop; auto.
  - intros a b Hab. apply set_entry_sim; auto.
Qed.
Lemma fill_sim r c f f' m m' : MR m m' -> (forall i j, i < r -> j < c -> sim ab R (f i j) (f' i j)) -> ssim ab MR (fill r c f m) (fill r c f' m').
Proof.
  intros Hm Hf. unfold fill. apply ssim_for2; [exact Hm|]. intros i j t t' Hi Hj Ht. eapply ssim_eval; [apply Hf; auto|]. intros a b Hab. apply set_entry_sim; auto.
Qed.
Lemma Mat_new_sim r c : MR (Mat_new E r c) (Mat_new E' r c).
Proof. split; [reflexivity|]. split; [reflexivity|]. apply repeat_sim, (sim_fresh _ _ _ _ HR). Qed.
Lemma setEntries_sim m m' p p' n : MR m m' -> Forall2 (opt R) p p' -> ssim ab MR (setEntries_ptr m p n) (setEntries_ptr m' p' n).
Proof.
  intros Hm Hp. unfold setEntries_ptr. pose proof Hm as (Hr & Hc & _). rewrite <- Hr, <- Hc. destruct (_ <? _); [apply ssim_fail; discriminate|].
  apply fill_sim; auto. intros i j _ _. unfold offset. rewrite <- Hc. apply read_sim, Hp.
Qed.
Lemma Mat_copy_sim m m' : MR m m' -> sim ab MR (Mat_copy E m) (Mat_copy E' m').
Proof. intros (Hr & Hc & Hd). unfold Mat_copy. rewrite <- Hr, <- Hc. apply sim_final, setEntries_sim; [apply Mat_new_sim|exact Hd]. Qed.
Lemma Mat_val_sim r c v v' : R v v' -> sim ab MR (Mat_val E r c v) (Mat_val E' r c v').
Proof. intros H. unfold Mat_val, mat_setEntries_val. apply sim_final. cbn [rows cols Mat_new]. apply fill_sim; [apply Mat_new_sim|]. intros i j _ _. apply sim_ok, H. Qed.
Lemma same_dims_sim a a' b b' : MR a a' -> MR b b' -> same_dims a b = same_dims a' b'.
Proof. intros (H1 & H2 & _) (H3 & H4 & _). unfold same_dims. congruence. Qed.
Lemma M_neg_sim m m' : MR m m' -> sim ab MR (M_neg E m) (M_neg E' m').
Proof.
  intros Hm. unfold M_neg. pose proof Hm as (Hr & Hc & _). rewrite <- Hr, <- Hc. apply sim_final, fill_sim; [apply Mat_new_sim|]. intros i j _ _.
  eapply sim_bind; [apply entry_sim, Hm|]. intros a b Hab. apply (sim_neg _ _ _ _ HR), Hab.
Qed.
Lemma mat_binary_sim op op' x x' y y' : (forall a b a' b', R a a' -> R b b' -> sim ab R (op a b) (op' a' b')) ->
  MR x x' -> MR y y' -> sim ab MR (mat_binary E op x y) (mat_binary E' op' x' y').
Proof.
  intros Hop Hx Hy. unfold mat_binary. rewrite <- (same_dims_sim x x' y y' Hx Hy). destruct (negb _); [apply sim_fail; discriminate|].
  pose proof Hx as (Hr & Hc & _). rewrite <- Hr, <- Hc. apply sim_final, fill_sim; [apply Mat_new_sim|]. intros i j _ _.
  eapply sim_bind; [apply entry_sim, Hx|]. intros a a' Ha. eapply sim_bind; [apply entry_sim, Hy|]. intros b b' Hb. apply Hop; auto.
Qed.
Lemma mat_assign_sim op op' x x' y y' : (forall a b a' b', R a a' -> option_rel R b b' -> sim ab R (op a b) (op' a' b')) ->
  MR x x' -> option_rel MR y y' -> ssim ab MR (mat_assign op x y) (mat_assign op' x' y').
Proof.
  intros Hop Hx Hy. unfold mat_assign. pose proof Hx as (Hr & Hc & _). rewrite <- Hr, <- Hc.
  assert (L : same_dims x (rd x y) = same_dims x' (rd x' y')).
  { destruct y as [y|], y' as [y'|]; cbn in *; try contradiction; apply same_dims_sim; auto. }
  rewrite <- L. destruct (negb _); [apply ssim_fail; discriminate|].
  apply ssim_for2; [exact Hx|]. intros i j t t' _ _ Ht. eapply ssim_eval.
  - destruct y as [y|], y' as [y'|]; cbn in *; try contradiction; [apply entry_sim, Hy|apply entry_sim, Ht].
  - intros a b Hab. apply assign_entry_sim; auto.
Qed.
Lemma M_scale_sim s s' m m' : R s s' -> MR m m' -> sim ab MR (M_scale E s m) (M_scale E' s' m').
Proof.
  intros Hs Hm. unfold M_scale. pose proof Hm as (Hr & Hc & _). rewrite <- Hr, <- Hc. apply sim_final, fill_sim; [apply Mat_new_sim|]. intros i j _ _.
  eapply sim_bind; [apply entry_sim, Hm|]. intros a b Hab. apply (sim_mul _ _ _ _ HR); auto.
Qed.
Lemma M_div_sim s s' m m' : R s s' -> MR m m' -> sim ab MR (M_div E m s) (M_div E' m' s').
Proof.
  intros Hs Hm. unfold M_div. pose proof Hm as (Hr & Hc & _). rewrite <- Hr, <- Hc. apply sim_final, fill_sim; [apply Mat_new_sim|]. intros i j _ _.
  eapply sim_bind; [apply entry_sim, Hm|]. intros a b Hab. apply (sim_div _ _ _ _ HD); auto.
Qed.
Lemma mat_scale_assign_sim op op' m m' s s' : (forall a b a' b', R a a' -> option_rel R b b' -> sim ab R (op a b) (op' a' b')) ->
  MR m m' -> mscalar_sim R s s' -> ssim ab MR (mat_scale_assign op m s) (mat_scale_assign op' m' s').
Proof.
  intros Hop Hm Hs. unfold mat_scale_assign. pose proof Hm as (Hr & Hc & _). rewrite <- Hr, <- Hc. apply ssim_for2; [exact Hm|]. intros i j t t' _ _ Ht.
  destruct s as [a|k l], s' as [a'|k' l']; cbn in Hs; try contradiction; [apply assign_entry_sim; auto|destruct Hs; subst k' l'].
  destruct (_ && _)%bool; [apply assign_entry_sim; cbn; auto|]. eapply ssim_eval; [apply entry_sim, Ht|]. intros a b Hab. apply assign_entry_sim; auto.
Qed.
Lemma M_product_sim x x' y y' : MR x x' -> MR y y' -> sim ab MR (M_product E x y) (M_product E' x' y').
Proof.
  intros Hx Hy. unfold M_product. pose proof Hx as (Hr & Hc & _). pose proof Hy as (Hr' & Hc' & _). rewrite <- Hr, <- Hc, <- Hr', <- Hc'.
  destruct (negb _); [apply sim_fail; discriminate|]. eapply sim_bind; [apply Mat_val_sim, zero_sim|]. intros r r' H.
  apply sim_final, ssim_for; [exact H|]. intros i t t' _ Ht. apply ssim_for; [exact Ht|]. intros k u u' _ Hu. apply ssim_for; [exact Hu|]. intros j w w' _ Hw.
  eapply ssim_eval.
  - eapply sim_bind; [apply entry_sim, Hx|]. intros a a' Ha. eapply sim_bind; [apply entry_sim, Hy|]. intros b b' Hb. apply (sim_mul _ _ _ _ HR); eauto.
  - intros p p' Hp. apply assign_entry_sim; auto. apply (sim_addA _ _ _ _ HR).
Qed.
Lemma all_sim p p' : (forall i, sim ab eq (p i) (p' i)) -> forall n i, sim ab eq (all_ n i p) (all_ n i p').
Proof.
  intros H. induction n as [|n IH]; intros i; cbn [all_]; [apply sim_ok; auto|]. eapply sim_bind; [apply H|]. intros e e' <-. destruct e; [apply IH|apply sim_ok; auto].
Qed.
Lemma M_eq_sim x x' y y' : MR x x' -> MR y y' -> sim ab eq (M_eq E x y) (M_eq E' x' y').
Proof.
  intros Hx Hy. unfold M_eq. rewrite <- (same_dims_sim x x' y y' Hx Hy). destruct (negb _); [apply sim_ok; auto|].
  pose proof Hx as (Hr & Hc & _). rewrite <- Hr, <- Hc. apply all_sim. intros i. apply all_sim. intros j.
  eapply sim_bind; [apply entry_sim, Hx|]. intros a a' Ha. eapply sim_bind; [apply entry_sim, Hy|]. intros b b' Hb. apply (sim_eqb _ _ _ _ HR); auto.
Qed.
Lemma first_minor_sim m m' i j : MR m m' -> sim ab MR (first_minor E m i j) (first_minor E' m' i j).
Proof.
  intros Hm. unfold first_minor. pose proof Hm as (Hr & Hc & _). rewrite <- Hr, <- Hc. destruct (_ || _)%bool; [apply sim_fail; discriminate|].
  apply sim_final, fill_sim; [apply Mat_new_sim|]. intros k l _ _. apply entry_sim, Hm.
Qed.
Lemma cofactor_sim m m' i j : MR m m' -> sim ab MR (cofactor E m i j) (cofactor E' m' i j).
Proof.
  intros Hm. unfold cofactor. eapply sim_bind; [apply first_minor_sim, Hm|]. intros a b Hab. destruct (_ =? _); [apply M_neg_sim, Hab|apply sim_ok, Hab].
Qed.
Lemma det2_sim m m' : MR m m' -> sim ab R (det2 E m) (det2 E' m').
Proof.
  intros (_ & _ & Hd). unfold det2. eapply sim_bind; [apply read_sim, Hd|]. intros a a' Ha. eapply sim_bind; [apply read_sim, Hd|]. intros b b' Hb.
  eapply sim_bind; [apply (sim_mul _ _ _ _ HR); eauto|]. intros p p' Hp.
  eapply sim_bind; [apply read_sim, Hd|]. intros c c' Hc. eapply sim_bind; [apply read_sim, Hd|]. intros d d' Hd'.
  eapply sim_bind; [apply (sim_mul _ _ _ _ HR); eauto|]. intros q q' Hq. apply (sim_sub _ _ _ _ HR); auto.
Qed.
Lemma expansion_sim rec rec' m m' n ent ent' mnr mnr' : (forall s s', MR s s' -> sim ab R (rec s) (rec' s')) -> MR m m' ->
  (forall k, sim ab R (ent k) (ent' k)) -> (forall k, sim ab MR (mnr k) (mnr' k)) -> sim ab R (expansion E rec m n ent mnr) (expansion E' rec' m' n ent' mnr').
Proof.
  intros Hrec Hm He Hn. unfold expansion. pose proof Hm as (Hr & Hc & Hd). rewrite <- Hr, <- Hc. destruct (negb _); [apply sim_fail; discriminate|].
  destruct (_ =? 1); [apply read_sim, Hd|]. destruct (_ =? 2); [apply det2_sim, Hm|].
  apply sim_final, ssim_for; [apply zero_sim|]. intros k t t' _ Ht. eapply ssim_eval; [apply He|]. intros x x' Hx.
  eapply ssim_eval; [apply (sim_eqb _ _ _ _ HR); [exact Hx|apply zero_sim]|]. intros z z' <-. destruct z; [apply ssim_done, Ht|].
  eapply ssim_eval; [|intros a b Hab; apply ssim_done, Hab]. eapply sim_bind; [apply Hn|]. intros s s' Hs. eapply sim_bind; [apply Hrec, Hs|]. intros d d' Hd'.
  eapply sim_bind; [apply (sim_mul _ _ _ _ HR); eauto|]. intros p p' Hp. destruct (_ =? 1); [apply (sim_subA _ _ _ _ HR)|apply (sim_addA _ _ _ _ HR)]; auto.
Qed.
Lemma row_expansion_sim fuel : forall m m', MR m m' -> sim ab R (row_expansion E fuel m) (row_expansion E' fuel m').
Proof.
  induction fuel as [|f IH]; intros m m' Hm; cbn [row_expansion]; [apply sim_fail; discriminate|]. pose proof Hm as (_ & Hc & _). rewrite <- Hc.
  apply expansion_sim; auto; intros k; [apply entry_sim, Hm|apply first_minor_sim, Hm].
Qed.
Lemma col_expansion_sim fuel : forall m m', MR m m' -> sim ab R (col_expansion E fuel m) (col_expansion E' fuel m').
Proof.
  induction fuel as [|f IH]; intros m m' Hm; cbn [col_expansion]; [apply sim_fail; discriminate|]. pose proof Hm as (Hr & _ & _). rewrite <- Hr.
  apply expansion_sim; auto; intros k; [apply entry_sim, Hm|apply first_minor_sim, Hm].
Qed.
Lemma row_cofactor_expansion_sim m m' : MR m m' -> sim ab R (row_cofactor_expansion E m) (row_cofactor_expansion E' m').
Proof. intros Hm. unfold row_cofactor_expansion. pose proof Hm as (Hr & _). rewrite <- Hr. apply row_expansion_sim, Hm. Qed.
Lemma col_cofactor_expansion_sim m m' : MR m m' -> sim ab R (col_cofactor_expansion E m) (col_cofactor_expansion E' m').
Proof. intros Hm. unfold col_cofactor_expansion. pose proof Hm as (Hr & _). rewrite <- Hr. apply col_expansion_sim, Hm. Qed.

(** *** Elimination *)
Lemma swap_rows_sim m m' a b : MR m m' -> ssim ab MR (swap_rows m a b) (swap_rows m' a b).
Proof.
  intros Hm. unfold swap_rows. destruct (a =? b); [apply ssim_done, Hm|]. pose proof Hm as (_ & Hc & _). rewrite <- Hc.
  apply ssim_for; [exact Hm|]. intros k t t' _ Ht. eapply ssim_eval; [apply entry_sim, Ht|]. intros x x' Hx. eapply ssim_eval; [apply entry_sim, Ht|]. intros y y' Hy.
  eapply ssim_andthen; [apply set_entry_sim; eauto|]. intros u u' Hu. apply set_entry_sim; auto.
Qed.
Lemma find_pivot_sim m m' r : MR m m' -> forall fuel i p, sim ab eq (find_pivot E fuel m r i p) (find_pivot E' fuel m' r i p).
Proof.
  intros Hm. pose proof Hm as (Hr & Hc & _). induction fuel as [|f IH]; intros i p; cbn [find_pivot]; [apply sim_fail; discriminate|].
  eapply sim_bind; [apply entry_sim, Hm|]. intros a a' Ha. eapply sim_bind; [apply (sim_eqb _ _ _ _ HR); [exact Ha|apply zero_sim]|]. intros z z' <-.
  destruct z; [|apply sim_ok; auto]. rewrite <- Hr, <- Hc. destruct (rows m =? i + 1); [|apply IH]. destruct (cols m =? p + 1); [apply sim_ok; auto|apply IH].
Qed.
Lemma for_to_sim {S S'} (Q : S -> S' -> Prop) a b body body' s s' : Q s s' ->
  (forall i t t', Q t t' -> ssim ab Q (body i t) (body' i t')) -> ssim ab Q (for_to a b body s) (for_to a b body' s').
Proof. intros H HB. unfold for_to. apply ssim_for; auto. Qed.
Lemma det_clear_sim m m' r p : MR m m' -> ssim ab MR (det_clear E m r p) (det_clear E' m' r p).
Proof.
  intros Hm. unfold det_clear. pose proof Hm as (Hr & _). rewrite <- Hr. apply for_to_sim; [exact Hm|]. intros i t t' Ht.
  destruct (i =? r); [apply ssim_done, Ht|]. eapply ssim_eval; [apply entry_sim, Ht|]. intros v v' Hv. pose proof Ht as (_ & Hc & _). rewrite <- Hc.
  apply for_to_sim; [exact Ht|]. intros j u u' Hu. eapply ssim_eval.
  - eapply sim_bind; [apply entry_sim, Hu|]. intros a a' Ha. eapply sim_bind; [apply (sim_mul _ _ _ _ HR); eauto|]. intros q q' Hq.
    eapply sim_bind; [apply entry_sim, Hu|]. intros b b' Hb. apply (sim_div _ _ _ _ HD); eauto.
  - intros q q' Hq. apply assign_entry_sim; auto. apply (sim_subA _ _ _ _ HR).
Qed.
Definition pair_sim (x : Mat A * A) (y : Mat B * B) : Prop := MR (fst x) (fst y) /\ R0 (snd x) (snd y).
Lemma det_rows_sim n : forall r m m' f f' p, MR m m' -> R0 f f' -> sim ab pair_sim (det_rows E n r m f p) (det_rows E' n r m' f' p).
Proof.
  induction n as [|n IH]; intros r m m' f f' p Hm Hf; cbn [det_rows]; [apply sim_ok; split; auto|].
  pose proof Hm as (Hr & Hc & _). unfold pivot_fuel. rewrite <- Hr, <- Hc. destruct (cols m <=? p); [apply sim_ok; split; auto|].
  eapply sim_bind; [apply find_pivot_sim, Hm|]. intros o o' <-. destruct o as [[i q]|]; [|apply sim_ok; split; auto].
  eapply sim_bind with (R := pair_sim).
  - destruct (i =? r); [apply sim_ok; split; auto|]. eapply sim_bind; [apply sim_final, swap_rows_sim, Hm|]. intros t t' Ht.
    eapply sim_bind; [apply (sim_mulA _ _ _ _ _ HP); [exact Hf|apply const_sim; auto]|]. intros g g' Hg. apply sim_ok. split; auto.
  - intros [t g] [t' g'] [Ht Hg]. cbn [fst snd] in *. eapply sim_bind; [apply sim_final, det_clear_sim, Ht|]. intros u u' Hu. apply IH; auto.
Qed.
Lemma determinant_sim m m' : MR m m' -> sim ab R (determinant E m) (determinant E' m').
Proof.
  intros Hm. unfold determinant. pose proof Hm as (Hr & Hc & Hd). rewrite <- Hr, <- Hc. destruct (negb _); [apply sim_fail; discriminate|].
  destruct (_ =? 1); [apply read_sim, Hd|]. destruct (_ =? 2); [apply det2_sim, Hm|].
  eapply sim_bind; [apply Mat_copy_sim, Hm|]. intros t t' Ht. pose proof Ht as (Hr' & _). rewrite <- Hr'.
  eapply sim_bind; [apply det_rows_sim; [exact Ht|apply (sim_weaker _ _ _ _ _ HP), one_sim]|]. intros [u f] [u' f'] [Hu Hf]. cbn [fst snd] in *. pose proof Hu as (Hr2 & _). rewrite <- Hr2.
  eapply sim_bind.
  - apply sim_final, ssim_for; [apply (sim_weaker _ _ _ _ _ HP), one_sim|]. intros i p p' _ Hp. eapply ssim_eval; [|intros a b Hab; apply ssim_done, Hab].
    eapply sim_bind; [apply entry_sim, Hu|]. intros a a' Ha. apply (sim_mulA _ _ _ _ _ HP); auto.
  - intros p p' Hp. apply (sim_ratio _ _ _ _ _ HP); auto.
Qed.
Lemma rref_clear_sim m m' r p : MR m m' -> ssim ab MR (rref_clear E m r p) (rref_clear E' m' r p).
Proof.
  intros Hm. unfold rref_clear. pose proof Hm as (Hr & _). rewrite <- Hr. apply ssim_for; [exact Hm|]. intros i t t' _ Ht.
  destruct (i =? r); [apply ssim_done, Ht|]. eapply ssim_eval; [apply entry_sim, Ht|]. intros v v' Hv. pose proof Ht as (_ & Hc & _). rewrite <- Hc.
  apply ssim_for; [exact Ht|]. intros j u u' _ Hu. eapply ssim_eval.
  - eapply sim_bind; [apply entry_sim, Hu|]. intros a a' Ha. apply (sim_mul _ _ _ _ HR); eauto.
  - intros q q' Hq. apply assign_entry_sim; auto. apply (sim_subA _ _ _ _ HR).
Qed.
Lemma rref_rows_sim n : forall r p m m', MR m m' -> ssim ab MR (rref_rows E n r p m) (rref_rows E' n r p m').
Proof.
  induction n as [|n IH]; intros r p m m' Hm; cbn [rref_rows]; [apply ssim_done, Hm|].
  pose proof Hm as (Hr & Hc & _). unfold pivot_fuel. rewrite <- Hr, <- Hc. destruct (cols m <=? p); [apply ssim_done, Hm|].
  eapply ssim_eval; [apply find_pivot_sim, Hm|]. intros o o' <-. destruct o as [[i q]|]; [|apply ssim_done, Hm].
  eapply ssim_andthen; [apply swap_rows_sim, Hm|]. intros t t' Ht. eapply ssim_eval; [apply entry_sim, Ht|]. intros v v' Hv.
  pose proof Ht as (_ & Hc' & _). rewrite <- Hc'. eapply ssim_andthen.
  - apply ssim_for; [exact Ht|]. intros j u u' _ Hu. apply assign_entry_sim; auto. apply (sim_divA _ _ _ _ HD).
  - intros u u' Hu. eapply ssim_andthen; [apply rref_clear_sim, Hu|]. intros w w' Hw. apply IH, Hw.
Qed.
Lemma inplace_rref_sim m m' : MR m m' -> ssim ab MR (inplace_rref E m) (inplace_rref E' m').
Proof. intros Hm. unfold inplace_rref. pose proof Hm as (Hr & _). rewrite <- Hr. apply rref_rows_sim, Hm. Qed.
Lemma rref_sim m m' : MR m m' -> sim ab MR (rref E m) (rref E' m').
Proof. intros Hm. unfold rref. eapply sim_bind; [apply Mat_copy_sim, Hm|]. intros t t' Ht. apply sim_final, inplace_rref_sim, Ht. Qed.
Lemma identity_sim n : sim ab MR (identityMatrix E n) (identityMatrix E' n).
Proof.
  unfold identityMatrix. eapply sim_bind; [apply Mat_val_sim, zero_sim|]. intros r r' Hr. apply sim_final, ssim_for; [exact Hr|]. intros i t t' _ Ht.
  apply set_entry_sim; auto. apply one_sim.
Qed.
Lemma augmented_sim x x' y y' : MR x x' -> MR y y' -> sim ab MR (augmentedMatrix E x y) (augmentedMatrix E' x' y').
Proof.
  intros Hx Hy. unfold augmentedMatrix. pose proof Hx as (Hr & Hc & _). pose proof Hy as (Hr' & Hc' & _). rewrite <- Hr, <- Hc, <- Hr', <- Hc'.
  destruct (negb _); [apply sim_fail; discriminate|]. apply sim_final, ssim_for; [apply Mat_new_sim|]. intros i t t' _ Ht.
  eapply ssim_andthen.
  - apply ssim_for; [exact Ht|]. intros j u u' _ Hu. eapply ssim_eval; [apply entry_sim, Hx|]. intros a a' Ha. apply set_entry_sim; auto.
  - intros u u' Hu. apply ssim_for; [exact Hu|]. intros j w w' _ Hw. eapply ssim_eval; [apply entry_sim, Hy|]. intros a a' Ha. apply set_entry_sim; auto.
Qed.
Lemma inverse_sim m m' : MR m m' -> sim ab MR (inverse E m) (inverse E' m').
Proof.
  intros Hm. unfold inverse. pose proof Hm as (Hr & Hc & _). rewrite <- Hr, <- Hc. destruct (negb _); [apply sim_fail; discriminate|].
  eapply sim_bind; [apply identity_sim|]. intros i i' Hi. eapply sim_bind; [apply augmented_sim; eauto|]. intros r r' Hr'.
  eapply sim_bind; [apply sim_final, inplace_rref_sim, Hr'|]. intros t t' Ht. apply sim_final, ssim_for2; [apply Mat_new_sim|]. intros k l u u' _ _ Hu.
  eapply ssim_eval.
  - eapply sim_bind; [apply entry_sim, Ht|]. intros a a' Ha. eapply sim_bind; [apply entry_sim, Hi|]. intros b b' Hb. apply (sim_eqb _ _ _ _ HR); eauto.
  - intros e e' <-. destruct e; [|apply ssim_fail; discriminate]. eapply ssim_eval; [apply entry_sim, Ht|]. intros a a' Ha. apply set_entry_sim; auto.
Qed.
Lemma trace_sim m m' : MR m m' -> sim ab R (trace E m) (trace E' m').
Proof.
  intros Hm. unfold trace. pose proof Hm as (Hr & Hc & _). rewrite <- Hr, <- Hc. destruct (negb _); [apply sim_fail; discriminate|].
  apply sim_final, ssim_for; [apply zero_sim|]. intros i t t' _ Ht. eapply ssim_eval; [|intros a b Hab; apply ssim_done, Hab].
  eapply sim_bind; [apply entry_sim, Hm|]. intros a a' Ha. apply (sim_addA _ _ _ _ HR); auto.
Qed.
Lemma transpose_sim m m' : MR m m' -> sim ab MR (transpose E m) (transpose E' m').
Proof.
  intros Hm. unfold transpose. pose proof Hm as (Hr & Hc & _). rewrite <- Hr, <- Hc. apply sim_final, ssim_for2; [apply Mat_new_sim|]. intros i j t t' _ _ Ht.
  eapply ssim_eval; [apply entry_sim, Hm|]. intros a a' Ha. apply set_entry_sim; auto.
Qed.
End Sim.
