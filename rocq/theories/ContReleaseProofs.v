(** Vec and Mat run alike with and without assertions in the element type. *)
From Verif Require Import Base IntModel ElemModel ElemSpec ElemProofs VecModel MatModel SimSpec SimProofs ContReleaseSpec.
Local Open Scope nat_scope.

Ltac stop := first [exact Logic.I | reflexivity].

Section Basics.
Section Gen.
Context {A B : Type}.
Lemma alike_ok (R : A -> B -> Prop) a b : R a b -> alike R (Ok a) (Ok b).
Proof. intros H. exact H. Qed.
Lemma salike_done (R : A -> B -> Prop) a b : R a b -> salike R (done a) (done b).
Proof. intros H. exact H. Qed.
Lemma alike_final (R : A -> B -> Prop) p p' : salike R p p' -> alike R (final p) (final p').
Proof. intros H. exact H. Qed.
Lemma alike_mono (R R' : A -> B -> Prop) m m' : alike R m m' -> (forall a b, R a b -> R' a b) -> alike R' m m'.
Proof. intros H HR. destruct m, m'; cbn in *; try contradiction; auto. Qed.
End Gen.
Lemma alike_bind {A B A' B'} (R : A -> B -> Prop) (Q : A' -> B' -> Prop) m m' f f' :
  alike R m m' -> (forall a b, R a b -> alike Q (f a) (f' b)) -> alike Q (x <- m ;; f x) (x <- m' ;; f' x).
Proof. intros H K. destruct m, m'; cbn in *; try contradiction; auto. Qed.
Lemma salike_eval {A B S S'} (R : A -> B -> Prop) (Q : S -> S' -> Prop) s s' m m' k k' :
  alike R m m' -> (forall a b, R a b -> salike Q (k a) (k' b)) -> salike Q (eval s m k) (eval s' m' k').
Proof. intros H K. destruct m, m'; cbn in *; try contradiction; auto. Qed.
Lemma salike_andthen {S S'} (P Q : S -> S' -> Prop) p p' k k' :
  salike P p p' -> (forall a b, P a b -> salike Q (k a) (k' b)) -> salike Q (andthen p k) (andthen p' k').
Proof. intros H K. destruct p as [x [[]|?| | |]], p' as [x' [[]|?| | |]]; cbn in *; try contradiction; auto. Qed.
Lemma salike_for {S S'} (Q : S -> S' -> Prop) n : forall a body body' s s', Q s s' ->
  (forall i t t', a <= i < a + n -> Q t t' -> salike Q (body i t) (body' i t')) -> salike Q (for_ n a body s) (for_ n a body' s').
Proof.
  induction n as [|n IH]; intros a body body' s s' H HB; cbn [for_]; [apply salike_done, H|].
  eapply salike_andthen; [apply HB; [lia|exact H]|]. intros t t' Ht. apply IH; [exact Ht|]. intros i u u' Hi. apply HB. lia.
Qed.
Lemma salike_for2 {S S'} (Q : S -> S' -> Prop) r c body body' s s' : Q s s' ->
  (forall i j t t', i < r -> j < c -> Q t t' -> salike Q (body i j t) (body' i j t')) -> salike Q (for2 r c body s) (for2 r c body' s').
Proof.
  intros H HB. unfold for2. apply salike_for; [exact H|]. intros i t t' Hi Ht. apply salike_for; [exact Ht|]. intros j u u' Hj Hu. apply HB; auto; lia.
Qed.
End Basics.

Section Sim.
Context {A B : Type} (R : A -> B -> Prop) (E : ops A) (E' : ops B).
Hypothesis HR : ring_alike R E E'.
Hypothesis HD : div_alike R E E'.
Context (R0 : A -> B -> Prop).
Hypothesis HP : prod_alike R R0 E E'.
Local Notation VR := (vec_sim R).
Local Notation MR := (mat_alike R).

(** *** lists *)
Lemma get_at_alike x x' i : VR x x' -> alike R (get_at x i) (get_at x' i).
Proof.
  intros H. unfold get_at. revert i. induction H as [|a b x x' Hab Hx IH]; intros [|i]; cbn; try (stop); [apply alike_ok, Hab|apply IH].
Qed.
Lemma replace_alike {C D} (Q : C -> D -> Prop) x x' i a b : Forall2 Q x x' -> Q a b -> Forall2 Q (replace x i a) (replace x' i b).
Proof. intros H Hab. revert i. induction H as [|c d x x' Hcd Hx IH]; intros [|i]; cbn; constructor; auto. Qed.
Lemma repeat_alike {C D} (Q : C -> D -> Prop) a b n : Q a b -> Forall2 Q (repeat a n) (repeat b n).
Proof. intros H. induction n; cbn; constructor; auto. Qed.
Lemma const_alike k : k = 0%Z \/ k = 1%Z \/ k = (-1)%Z -> R (of_int E k) (of_int E' k).
Proof. intros H. apply (al_const _ _ _ HR). cbn. intuition. Qed.
Lemma zero_alike : R (of_int E 0) (of_int E' 0).
Proof. apply const_alike. auto. Qed.
Lemma one_alike : R (of_int E 1) (of_int E' 1).
Proof. apply const_alike. auto. Qed.

(** *** Vec *)
Lemma assign_at_alike op op' x x' i y y' : (forall a b a' b', R a a' -> option_rel R b b' -> alike R (op a b) (op' a' b')) ->
  VR x x' -> option_rel R y y' -> salike VR (assign_at op x i y) (assign_at op' x' i y').
Proof.
  intros Hop Hx Hy. unfold assign_at. eapply salike_eval.
  - eapply alike_bind; [apply get_at_alike, Hx|]. intros a b Hab. apply Hop; auto.
  - intros a b Hab. apply salike_done, replace_alike; auto.
Qed.
Lemma vec_binary_alike op op' x x' y y' : (forall a b a' b', R a a' -> option_rel R b b' -> alike R (op a b) (op' a' b')) ->
  VR x x' -> VR y y' -> alike VR (vec_binary op x y) (vec_binary op' x' y').
Proof.
  intros Hop Hx Hy. unfold vec_binary. rewrite <- (sim_length Hx), <- (sim_length Hy). destruct (negb _); [stop|].
  apply alike_final, salike_for; [exact Hx|]. intros i t t' _ Ht. eapply salike_eval; [apply get_at_alike, Hy|]. intros a b Hab. apply assign_at_alike; auto.
Qed.
Lemma vec_assign_alike op op' x x' y y' : (forall a b a' b', R a a' -> option_rel R b b' -> alike R (op a b) (op' a' b')) ->
  VR x x' -> option_rel VR y y' -> salike VR (vec_assign op x y) (vec_assign op' x' y').
Proof.
  intros Hop Hx Hy. unfold vec_assign.
  assert (L : length (rd x y) = length (rd x' y')).
  { destruct y as [y|], y' as [y'|]; cbn in *; try contradiction; [apply (sim_length Hy)|apply (sim_length Hx)]. }
  rewrite <- L, <- (sim_length Hx). destruct (negb _); [stop|].
  apply salike_for; [exact Hx|]. intros i t t' _ Ht. eapply salike_eval.
  - destruct y as [y|], y' as [y'|]; cbn in *; try contradiction; [apply get_at_alike, Hy|apply get_at_alike, Ht].
  - intros a b Hab. apply assign_at_alike; auto.
Qed.
Lemma scale_assign_alike op op' x x' s s' : (forall a b a' b', R a a' -> option_rel R b b' -> alike R (op a b) (op' a' b')) ->
  VR x x' -> scalar_sim R s s' -> salike VR (scale_assign op x s) (scale_assign op' x' s').
Proof.
  intros Hop Hx Hs. unfold scale_assign. rewrite <- (sim_length Hx). apply salike_for; [exact Hx|]. intros i t t' _ Ht.
  destruct s as [a|k], s' as [a'|k']; cbn in Hs; try contradiction; [apply assign_at_alike; auto|subst k'].
  destruct (i =? k); [apply assign_at_alike; cbn; auto|]. eapply salike_eval; [apply get_at_alike, Ht|]. intros a b Hab. apply assign_at_alike; auto.
Qed.
Lemma dot_alike x x' y y' : VR x x' -> VR y y' -> alike R (dot E x y) (dot E' x' y').
Proof.
  intros Hx Hy. unfold dot. rewrite <- (sim_length Hx), <- (sim_length Hy). destruct (negb _); [stop|].
  apply alike_final, salike_for; [apply zero_alike|]. intros i t t' _ Ht. eapply salike_eval; [|intros a b Hab; apply salike_done, Hab].
  eapply alike_bind; [apply get_at_alike, Hx|]. intros a a' Ha. eapply alike_bind; [apply get_at_alike, Hy|]. intros b b' Hb.
  eapply alike_bind; [apply (al_mul _ _ _ HR); eauto|]. intros p p' Hp. apply (al_addA _ _ _ HR); auto.
Qed.
Lemma minor_alike x x' y y' i j : VR x x' -> VR y y' -> alike R (minor E x y i j) (minor E' x' y' i j).
Proof.
  intros Hx Hy. unfold minor. eapply alike_bind; [apply get_at_alike, Hx|]. intros a a' Ha. eapply alike_bind; [apply get_at_alike, Hy|]. intros b b' Hb.
  eapply alike_bind; [apply (al_mul _ _ _ HR); eauto|]. intros p p' Hp.
  eapply alike_bind; [apply get_at_alike, Hx|]. intros c c' Hc. eapply alike_bind; [apply get_at_alike, Hy|]. intros d d' Hd.
  eapply alike_bind; [apply (al_mul _ _ _ HR); eauto|]. intros q q' Hq. apply (al_sub _ _ _ HR); auto.
Qed.
Lemma cross_alike x x' y y' : VR x x' -> VR y y' -> alike VR (cross E x y) (cross E' x' y').
Proof.
  intros Hx Hy. unfold cross. rewrite <- (sim_length Hx), <- (sim_length Hy). destruct (negb _); [stop|].
  eapply alike_bind; [apply minor_alike; eauto|]. intros a a' Ha. eapply alike_bind; [apply minor_alike; eauto|]. intros b b' Hb.
  eapply alike_bind; [apply minor_alike; eauto|]. intros c c' Hc. cbn. apply alike_ok. repeat constructor; auto.
Qed.
Lemma eq_loop_alike x x' y y' : VR x x' -> VR y y' -> forall n i, alike eq (eq_loop E n i x y) (eq_loop E' n i x' y').
Proof.
  intros Hx Hy. induction n as [|n IH]; intros i; cbn [eq_loop]; [apply alike_ok; auto|].
  eapply alike_bind; [apply get_at_alike, Hx|]. intros a a' Ha. eapply alike_bind; [apply get_at_alike, Hy|]. intros b b' Hb.
  eapply alike_bind; [apply (al_eqb _ _ _ HR); eauto|]. intros e e' <-. destruct e; [apply IH|apply alike_ok; auto].
Qed.
Lemma V_eq_alike x x' y y' : VR x x' -> VR y y' -> alike eq (V_eq E x y) (V_eq E' x' y').
Proof.
  intros Hx Hy. unfold V_eq. rewrite <- (sim_length Hx), <- (sim_length Hy). destruct (negb _); [apply alike_ok; auto|apply eq_loop_alike; auto].
Qed.

(** *** Mat *)
Lemma read_alike p p' k : Forall2 (option_rel R) p p' -> alike R (read p k) (read p' k).
Proof.
  intros H. unfold read. revert k. induction H as [|a b x x' Hab Hx IH]; intros [|k]; cbn; try (stop).
  - destruct a as [a|], b as [b|]; try contradiction; [apply alike_ok, Hab|stop].
  - apply IH.
Qed.
Lemma entry_alike m m' i j : MR m m' -> alike R (entry m i j) (entry m' i j).
Proof. intros (Hr & Hc & Hd). unfold entry, offset. rewrite Hc. apply read_alike, Hd. Qed.
Lemma set_entry_alike m m' i j x x' : MR m m' -> R x x' -> salike MR (set_entry m i j x) (set_entry m' i j x').
Proof.
  intros (Hr & Hc & Hd) Hx. unfold set_entry, offset. rewrite Hc, <- (sim_length Hd). destruct (_ <? _); [|stop].
  apply salike_done. split; [exact Hr|]. split; [reflexivity|]. cbn. apply replace_alike; auto.
Qed.
Lemma assign_entry_alike op op' m m' i j y y' : (forall a b a' b', R a a' -> option_rel R b b' -> alike R (op a b) (op' a' b')) ->
  MR m m' -> option_rel R y y' -> salike MR (assign_entry op m i j y) (assign_entry op' m' i j y').
Proof.
  intros Hop Hm Hy. unfold assign_entry. eapply salike_eval.
  - eapply alike_bind; [apply entry_alike, Hm|]. intros a b Hab. apply Hop; auto.
  - intros a b Hab. apply set_entry_alike; auto.
Qed.
Lemma fill_alike r c f f' m m' : MR m m' -> (forall i j, i < r -> j < c -> alike R (f i j) (f' i j)) -> salike MR (fill r c f m) (fill r c f' m').
Proof.
  intros Hm Hf. unfold fill. apply salike_for2; [exact Hm|]. intros i j t t' Hi Hj Ht. eapply salike_eval; [apply Hf; auto|]. intros a b Hab. apply set_entry_alike; auto.
Qed.
Lemma Mat_new_alike r c : MR (Mat_new E r c) (Mat_new E' r c).
Proof. split; [reflexivity|]. split; [reflexivity|]. apply repeat_alike, (al_fresh _ _ _ HR). Qed.
Lemma setEntries_alike m m' p p' n : MR m m' -> Forall2 (option_rel R) p p' -> salike MR (setEntries_ptr m p n) (setEntries_ptr m' p' n).
Proof.
  intros Hm Hp. unfold setEntries_ptr. pose proof Hm as (Hr & Hc & _). rewrite <- Hr, <- Hc. destruct (_ <? _); [stop|].
  apply fill_alike; auto. intros i j _ _. unfold offset. rewrite <- Hc. apply read_alike, Hp.
Qed.
Lemma Mat_copy_alike m m' : MR m m' -> alike MR (Mat_copy E m) (Mat_copy E' m').
Proof. intros (Hr & Hc & Hd). unfold Mat_copy. rewrite <- Hr, <- Hc. apply alike_final, setEntries_alike; [apply Mat_new_alike|exact Hd]. Qed.
Lemma Mat_val_alike r c v v' : R v v' -> alike MR (Mat_val E r c v) (Mat_val E' r c v').
Proof. intros H. unfold Mat_val, mat_setEntries_val. apply alike_final. cbn [rows cols Mat_new]. apply fill_alike; [apply Mat_new_alike|]. intros i j _ _. apply alike_ok, H. Qed.
Lemma same_dims_alike a a' b b' : MR a a' -> MR b b' -> same_dims a b = same_dims a' b'.
Proof. intros (H1 & H2 & _) (H3 & H4 & _). unfold same_dims. congruence. Qed.
Lemma M_neg_alike m m' : MR m m' -> alike MR (M_neg E m) (M_neg E' m').
Proof.
  intros Hm. unfold M_neg. pose proof Hm as (Hr & Hc & _). rewrite <- Hr, <- Hc. apply alike_final, fill_alike; [apply Mat_new_alike|]. intros i j _ _.
  eapply alike_bind; [apply entry_alike, Hm|]. intros a b Hab. apply (al_neg _ _ _ HR), Hab.
Qed.
Lemma mat_binary_alike op op' x x' y y' : (forall a b a' b', R a a' -> R b b' -> alike R (op a b) (op' a' b')) ->
  MR x x' -> MR y y' -> alike MR (mat_binary E op x y) (mat_binary E' op' x' y').
Proof.
  intros Hop Hx Hy. unfold mat_binary. rewrite <- (same_dims_alike x x' y y' Hx Hy). destruct (negb _); [stop|].
  pose proof Hx as (Hr & Hc & _). rewrite <- Hr, <- Hc. apply alike_final, fill_alike; [apply Mat_new_alike|]. intros i j _ _.
  eapply alike_bind; [apply entry_alike, Hx|]. intros a a' Ha. eapply alike_bind; [apply entry_alike, Hy|]. intros b b' Hb. apply Hop; auto.
Qed.
Lemma mat_assign_alike op op' x x' y y' : (forall a b a' b', R a a' -> option_rel R b b' -> alike R (op a b) (op' a' b')) ->
  MR x x' -> option_rel MR y y' -> salike MR (mat_assign op x y) (mat_assign op' x' y').
Proof.
  intros Hop Hx Hy. unfold mat_assign. pose proof Hx as (Hr & Hc & _). rewrite <- Hr, <- Hc.
  assert (L : same_dims x (rd x y) = same_dims x' (rd x' y')).
  { destruct y as [y|], y' as [y'|]; cbn in *; try contradiction; apply same_dims_alike; auto. }
  rewrite <- L. destruct (negb _); [stop|].
  apply salike_for2; [exact Hx|]. intros i j t t' _ _ Ht. eapply salike_eval.
  - destruct y as [y|], y' as [y'|]; cbn in *; try contradiction; [apply entry_alike, Hy|apply entry_alike, Ht].
  - intros a b Hab. apply assign_entry_alike; auto.
Qed.
Lemma M_scale_alike s s' m m' : R s s' -> MR m m' -> alike MR (M_scale E s m) (M_scale E' s' m').
Proof.
  intros Hs Hm. unfold M_scale. pose proof Hm as (Hr & Hc & _). rewrite <- Hr, <- Hc. apply alike_final, fill_alike; [apply Mat_new_alike|]. intros i j _ _.
  eapply alike_bind; [apply entry_alike, Hm|]. intros a b Hab. apply (al_mul _ _ _ HR); auto.
Qed.
Lemma M_div_alike s s' m m' : R s s' -> MR m m' -> alike MR (M_div E m s) (M_div E' m' s').
Proof.
  intros Hs Hm. unfold M_div. pose proof Hm as (Hr & Hc & _). rewrite <- Hr, <- Hc. apply alike_final, fill_alike; [apply Mat_new_alike|]. intros i j _ _.
  eapply alike_bind; [apply entry_alike, Hm|]. intros a b Hab. apply (al_div _ _ _ HD); auto.
Qed.
Lemma mat_scale_assign_alike op op' m m' s s' : (forall a b a' b', R a a' -> option_rel R b b' -> alike R (op a b) (op' a' b')) ->
  MR m m' -> mscalar_sim R s s' -> salike MR (mat_scale_assign op m s) (mat_scale_assign op' m' s').
Proof.
  intros Hop Hm Hs. unfold mat_scale_assign. pose proof Hm as (Hr & Hc & _). rewrite <- Hr, <- Hc. apply salike_for2; [exact Hm|]. intros i j t t' _ _ Ht.
  destruct s as [a|k l], s' as [a'|k' l']; cbn in Hs; try contradiction; [apply assign_entry_alike; auto|destruct Hs; subst k' l'].
  destruct (_ && _)%bool; [apply assign_entry_alike; cbn; auto|]. eapply salike_eval; [apply entry_alike, Ht|]. intros a b Hab. apply assign_entry_alike; auto.
Qed.
Lemma M_product_alike x x' y y' : MR x x' -> MR y y' -> alike MR (M_product E x y) (M_product E' x' y').
Proof.
  intros Hx Hy. unfold M_product. pose proof Hx as (Hr & Hc & _). pose proof Hy as (Hr' & Hc' & _). rewrite <- Hr, <- Hc, <- Hr', <- Hc'.
  destruct (negb _); [stop|]. eapply alike_bind; [apply Mat_val_alike, zero_alike|]. intros r r' H.
  apply alike_final, salike_for; [exact H|]. intros i t t' _ Ht. apply salike_for; [exact Ht|]. intros k u u' _ Hu. apply salike_for; [exact Hu|]. intros j w w' _ Hw.
  eapply salike_eval.
  - eapply alike_bind; [apply entry_alike, Hx|]. intros a a' Ha. eapply alike_bind; [apply entry_alike, Hy|]. intros b b' Hb. apply (al_mul _ _ _ HR); eauto.
  - intros p p' Hp. apply assign_entry_alike; auto. apply (al_addA _ _ _ HR).
Qed.
Lemma all_alike p p' : (forall i, alike eq (p i) (p' i)) -> forall n i, alike eq (all_ n i p) (all_ n i p').
Proof.
  intros H. induction n as [|n IH]; intros i; cbn [all_]; [apply alike_ok; auto|]. eapply alike_bind; [apply H|]. intros e e' <-. destruct e; [apply IH|apply alike_ok; auto].
Qed.
Lemma M_eq_alike x x' y y' : MR x x' -> MR y y' -> alike eq (M_eq E x y) (M_eq E' x' y').
Proof.
  intros Hx Hy. unfold M_eq. rewrite <- (same_dims_alike x x' y y' Hx Hy). destruct (negb _); [apply alike_ok; auto|].
  pose proof Hx as (Hr & Hc & _). rewrite <- Hr, <- Hc. apply all_alike. intros i. apply all_alike. intros j.
  eapply alike_bind; [apply entry_alike, Hx|]. intros a a' Ha. eapply alike_bind; [apply entry_alike, Hy|]. intros b b' Hb. apply (al_eqb _ _ _ HR); auto.
Qed.
Lemma first_minor_alike m m' i j : MR m m' -> alike MR (first_minor E m i j) (first_minor E' m' i j).
Proof.
  intros Hm. unfold first_minor. pose proof Hm as (Hr & Hc & _). rewrite <- Hr, <- Hc. destruct (_ || _)%bool; [stop|].
  apply alike_final, fill_alike; [apply Mat_new_alike|]. intros k l _ _. apply entry_alike, Hm.
Qed.
Lemma cofactor_alike m m' i j : MR m m' -> alike MR (cofactor E m i j) (cofactor E' m' i j).
Proof.
  intros Hm. unfold cofactor. eapply alike_bind; [apply first_minor_alike, Hm|]. intros a b Hab. destruct (_ =? _); [apply M_neg_alike, Hab|apply alike_ok, Hab].
Qed.
Lemma det2_alike m m' : MR m m' -> alike R (det2 E m) (det2 E' m').
Proof.
  intros (_ & _ & Hd). unfold det2. eapply alike_bind; [apply read_alike, Hd|]. intros a a' Ha. eapply alike_bind; [apply read_alike, Hd|]. intros b b' Hb.
  eapply alike_bind; [apply (al_mul _ _ _ HR); eauto|]. intros p p' Hp.
  eapply alike_bind; [apply read_alike, Hd|]. intros c c' Hc. eapply alike_bind; [apply read_alike, Hd|]. intros d d' Hd'.
  eapply alike_bind; [apply (al_mul _ _ _ HR); eauto|]. intros q q' Hq. apply (al_sub _ _ _ HR); auto.
Qed.
Lemma expansion_alike rec rec' m m' n ent ent' mnr mnr' : (forall s s', MR s s' -> alike R (rec s) (rec' s')) -> MR m m' ->
  (forall k, alike R (ent k) (ent' k)) -> (forall k, alike MR (mnr k) (mnr' k)) -> alike R (expansion E rec m n ent mnr) (expansion E' rec' m' n ent' mnr').
Proof.
  intros Hrec Hm He Hn. unfold expansion. pose proof Hm as (Hr & Hc & Hd). rewrite <- Hr, <- Hc. destruct (negb _); [stop|].
  destruct (_ =? 1); [apply read_alike, Hd|]. destruct (_ =? 2); [apply det2_alike, Hm|].
  apply alike_final, salike_for; [apply zero_alike|]. intros k t t' _ Ht. eapply salike_eval; [apply He|]. intros x x' Hx.
  eapply salike_eval; [apply (al_eqb _ _ _ HR); [exact Hx|apply zero_alike]|]. intros z z' <-. destruct z; [apply salike_done, Ht|].
  eapply salike_eval; [|intros a b Hab; apply salike_done, Hab]. eapply alike_bind; [apply Hn|]. intros s s' Hs. eapply alike_bind; [apply Hrec, Hs|]. intros d d' Hd'.
  eapply alike_bind; [apply (al_mul _ _ _ HR); eauto|]. intros p p' Hp. destruct (_ =? 1); [apply (al_subA _ _ _ HR)|apply (al_addA _ _ _ HR)]; auto.
Qed.
Lemma row_expansion_alike fuel : forall m m', MR m m' -> alike R (row_expansion E fuel m) (row_expansion E' fuel m').
Proof.
  induction fuel as [|f IH]; intros m m' Hm; cbn [row_expansion]; [stop|]. pose proof Hm as (_ & Hc & _). rewrite <- Hc.
  apply expansion_alike; auto; intros k; [apply entry_alike, Hm|apply first_minor_alike, Hm].
Qed.
Lemma col_expansion_alike fuel : forall m m', MR m m' -> alike R (col_expansion E fuel m) (col_expansion E' fuel m').
Proof.
  induction fuel as [|f IH]; intros m m' Hm; cbn [col_expansion]; [stop|]. pose proof Hm as (Hr & _ & _). rewrite <- Hr.
  apply expansion_alike; auto; intros k; [apply entry_alike, Hm|apply first_minor_alike, Hm].
Qed.
Lemma row_cofactor_expansion_alike m m' : MR m m' -> alike R (row_cofactor_expansion E m) (row_cofactor_expansion E' m').
Proof. intros Hm. unfold row_cofactor_expansion. pose proof Hm as (Hr & _). rewrite <- Hr. apply row_expansion_alike, Hm. Qed.
Lemma col_cofactor_expansion_alike m m' : MR m m' -> alike R (col_cofactor_expansion E m) (col_cofactor_expansion E' m').
Proof. intros Hm. unfold col_cofactor_expansion. pose proof Hm as (Hr & _). rewrite <- Hr. apply col_expansion_alike, Hm. Qed.

(** *** Elimination *)
Lemma swap_rows_alike m m' a b : MR m m' -> salike MR (swap_rows m a b) (swap_rows m' a b).
Proof.
  intros Hm. unfold swap_rows. destruct (a =? b); [apply salike_done, Hm|]. pose proof Hm as (_ & Hc & _). rewrite <- Hc.
  apply salike_for; [exact Hm|]. intros k t t' _ Ht. eapply salike_eval; [apply entry_alike, Ht|]. intros x x' Hx. eapply salike_eval; [apply entry_alike, Ht|]. intros y y' Hy.
  eapply salike_andthen; [apply set_entry_alike; eauto|]. intros u u' Hu. apply set_entry_alike; auto.
Qed.
Lemma find_pivot_alike m m' r : MR m m' -> forall fuel i p, alike eq (find_pivot E fuel m r i p) (find_pivot E' fuel m' r i p).
Proof.
  intros Hm. pose proof Hm as (Hr & Hc & _). induction fuel as [|f IH]; intros i p; cbn [find_pivot]; [stop|].
  eapply alike_bind; [apply entry_alike, Hm|]. intros a a' Ha. eapply alike_bind; [apply (al_eqb _ _ _ HR); [exact Ha|apply zero_alike]|]. intros z z' <-.
  destruct z; [|apply alike_ok; auto]. rewrite <- Hr, <- Hc. destruct (rows m =? i + 1); [|apply IH]. destruct (cols m =? p + 1); [apply alike_ok; auto|apply IH].
Qed.
Lemma for_to_alike {S S'} (Q : S -> S' -> Prop) a b body body' s s' : Q s s' ->
  (forall i t t', Q t t' -> salike Q (body i t) (body' i t')) -> salike Q (for_to a b body s) (for_to a b body' s').
Proof. intros H HB. unfold for_to. apply salike_for; auto. Qed.
Lemma det_clear_alike m m' r p : MR m m' -> salike MR (det_clear E m r p) (det_clear E' m' r p).
Proof.
  intros Hm. unfold det_clear. pose proof Hm as (Hr & _). rewrite <- Hr. apply for_to_alike; [exact Hm|]. intros i t t' Ht.
  destruct (i =? r); [apply salike_done, Ht|]. eapply salike_eval; [apply entry_alike, Ht|]. intros v v' Hv. pose proof Ht as (_ & Hc & _). rewrite <- Hc.
  apply for_to_alike; [exact Ht|]. intros j u u' Hu. eapply salike_eval.
  - eapply alike_bind; [apply entry_alike, Hu|]. intros a a' Ha. eapply alike_bind; [apply (al_mul _ _ _ HR); eauto|]. intros q q' Hq.
    eapply alike_bind; [apply entry_alike, Hu|]. intros b b' Hb. apply (al_div _ _ _ HD); eauto.
  - intros q q' Hq. apply assign_entry_alike; auto. apply (al_subA _ _ _ HR).
Qed.
Definition pair_alike (x : Mat A * A) (y : Mat B * B) : Prop := MR (fst x) (fst y) /\ R0 (snd x) (snd y).
Lemma det_rows_alike n : forall r m m' f f' p, MR m m' -> R0 f f' -> alike pair_alike (det_rows E n r m f p) (det_rows E' n r m' f' p).
Proof.
  induction n as [|n IH]; intros r m m' f f' p Hm Hf; cbn [det_rows]; [apply alike_ok; split; auto|].
  pose proof Hm as (Hr & Hc & _). unfold pivot_fuel. rewrite <- Hr, <- Hc. destruct (cols m <=? p); [apply alike_ok; split; auto|].
  eapply alike_bind; [apply find_pivot_alike, Hm|]. intros o o' <-. destruct o as [[i q]|]; [|apply alike_ok; split; auto].
  eapply alike_bind with (R := pair_alike).
  - destruct (i =? r); [apply alike_ok; split; auto|]. eapply alike_bind; [apply alike_final, swap_rows_alike, Hm|]. intros t t' Ht.
    eapply alike_bind; [apply (al_mulA _ _ _ _ HP); [exact Hf|apply const_alike; auto]|]. intros g g' Hg. apply alike_ok. split; auto.
  - intros [t g] [t' g'] [Ht Hg]. cbn [fst snd] in *. eapply alike_bind; [apply alike_final, det_clear_alike, Ht|]. intros u u' Hu. apply IH; auto.
Qed.
Lemma determinant_alike m m' : MR m m' -> alike R (determinant E m) (determinant E' m').
Proof.
  intros Hm. unfold determinant. pose proof Hm as (Hr & Hc & Hd). rewrite <- Hr, <- Hc. destruct (negb _); [stop|].
  destruct (_ =? 1); [apply read_alike, Hd|]. destruct (_ =? 2); [apply det2_alike, Hm|].
  eapply alike_bind; [apply Mat_copy_alike, Hm|]. intros t t' Ht. pose proof Ht as (Hr' & _). rewrite <- Hr'.
  eapply alike_bind; [apply det_rows_alike; [exact Ht|apply (al_weaker _ _ _ _ HP), one_alike]|]. intros [u f] [u' f'] [Hu Hf]. cbn [fst snd] in *. pose proof Hu as (Hr2 & _). rewrite <- Hr2.
  eapply alike_bind.
  - apply alike_final, salike_for; [apply (al_weaker _ _ _ _ HP), one_alike|]. intros i p p' _ Hp. eapply salike_eval; [|intros a b Hab; apply salike_done, Hab].
    eapply alike_bind; [apply entry_alike, Hu|]. intros a a' Ha. apply (al_mulA _ _ _ _ HP); auto.
  - intros p p' Hp. apply (al_ratio _ _ _ _ HP); auto.
Qed.
Lemma rref_clear_alike m m' r p : MR m m' -> salike MR (rref_clear E m r p) (rref_clear E' m' r p).
Proof.
  intros Hm. unfold rref_clear. pose proof Hm as (Hr & _). rewrite <- Hr. apply salike_for; [exact Hm|]. intros i t t' _ Ht.
  destruct (i =? r); [apply salike_done, Ht|]. eapply salike_eval; [apply entry_alike, Ht|]. intros v v' Hv. pose proof Ht as (_ & Hc & _). rewrite <- Hc.
  apply salike_for; [exact Ht|]. intros j u u' _ Hu. eapply salike_eval.
  - eapply alike_bind; [apply entry_alike, Hu|]. intros a a' Ha. apply (al_mul _ _ _ HR); eauto.
  - intros q q' Hq. apply assign_entry_alike; auto. apply (al_subA _ _ _ HR).
Qed.
Lemma rref_rows_alike n : forall r p m m', MR m m' -> salike MR (rref_rows E n r p m) (rref_rows E' n r p m').
Proof.
  induction n as [|n IH]; intros r p m m' Hm; cbn [rref_rows]; [apply salike_done, Hm|].
  pose proof Hm as (Hr & Hc & _). unfold pivot_fuel. rewrite <- Hr, <- Hc. destruct (cols m <=? p); [apply salike_done, Hm|].
  eapply salike_eval; [apply find_pivot_alike, Hm|]. intros o o' <-. destruct o as [[i q]|]; [|apply salike_done, Hm].
  eapply salike_andthen; [apply swap_rows_alike, Hm|]. intros t t' Ht. eapply salike_eval; [apply entry_alike, Ht|]. intros v v' Hv.
  pose proof Ht as (_ & Hc' & _). rewrite <- Hc'. eapply salike_andthen.
  - apply salike_for; [exact Ht|]. intros j u u' _ Hu. apply assign_entry_alike; auto. apply (al_divA _ _ _ HD).
  - intros u u' Hu. eapply salike_andthen; [apply rref_clear_alike, Hu|]. intros w w' Hw. apply IH, Hw.
Qed.
Lemma inplace_rref_alike m m' : MR m m' -> salike MR (inplace_rref E m) (inplace_rref E' m').
Proof. intros Hm. unfold inplace_rref. pose proof Hm as (Hr & _). rewrite <- Hr. apply rref_rows_alike, Hm. Qed.
Lemma rref_alike m m' : MR m m' -> alike MR (rref E m) (rref E' m').
Proof. intros Hm. unfold rref. eapply alike_bind; [apply Mat_copy_alike, Hm|]. intros t t' Ht. apply alike_final, inplace_rref_alike, Ht. Qed.
Lemma identity_alike n : alike MR (identityMatrix E n) (identityMatrix E' n).
Proof.
  unfold identityMatrix. eapply alike_bind; [apply Mat_val_alike, zero_alike|]. intros r r' Hr. apply alike_final, salike_for; [exact Hr|]. intros i t t' _ Ht.
  apply set_entry_alike; auto. apply one_alike.
Qed.
Lemma augmented_alike x x' y y' : MR x x' -> MR y y' -> alike MR (augmentedMatrix E x y) (augmentedMatrix E' x' y').
Proof.
  intros Hx Hy. unfold augmentedMatrix. pose proof Hx as (Hr & Hc & _). pose proof Hy as (Hr' & Hc' & _). rewrite <- Hr, <- Hc, <- Hr', <- Hc'.
  destruct (negb _); [stop|]. apply alike_final, salike_for; [apply Mat_new_alike|]. intros i t t' _ Ht.
  eapply salike_andthen.
  - apply salike_for; [exact Ht|]. intros j u u' _ Hu. eapply salike_eval; [apply entry_alike, Hx|]. intros a a' Ha. apply set_entry_alike; auto.
  - intros u u' Hu. apply salike_for; [exact Hu|]. intros j w w' _ Hw. eapply salike_eval; [apply entry_alike, Hy|]. intros a a' Ha. apply set_entry_alike; auto.
Qed.
Lemma inverse_alike m m' : MR m m' -> alike MR (inverse E m) (inverse E' m').
Proof.
  intros Hm. unfold inverse. pose proof Hm as (Hr & Hc & _). rewrite <- Hr, <- Hc. destruct (negb _); [stop|].
  eapply alike_bind; [apply identity_alike|]. intros i i' Hi. eapply alike_bind; [apply augmented_alike; eauto|]. intros r r' Hr'.
  eapply alike_bind; [apply alike_final, inplace_rref_alike, Hr'|]. intros t t' Ht. apply alike_final, salike_for2; [apply Mat_new_alike|]. intros k l u u' _ _ Hu.
  eapply salike_eval.
  - eapply alike_bind; [apply entry_alike, Ht|]. intros a a' Ha. eapply alike_bind; [apply entry_alike, Hi|]. intros b b' Hb. apply (al_eqb _ _ _ HR); eauto.
  - intros e e' <-. destruct e; [|stop]. eapply salike_eval; [apply entry_alike, Ht|]. intros a a' Ha. apply set_entry_alike; auto.
Qed.
Lemma trace_alike m m' : MR m m' -> alike R (trace E m) (trace E' m').
Proof.
  intros Hm. unfold trace. pose proof Hm as (Hr & Hc & _). rewrite <- Hr, <- Hc. destruct (negb _); [stop|].
  apply alike_final, salike_for; [apply zero_alike|]. intros i t t' _ Ht. eapply salike_eval; [|intros a b Hab; apply salike_done, Hab].
  eapply alike_bind; [apply entry_alike, Hm|]. intros a a' Ha. apply (al_addA _ _ _ HR); auto.
Qed.
Lemma transpose_alike m m' : MR m m' -> alike MR (transpose E m) (transpose E' m').
Proof.
  intros Hm. unfold transpose. pose proof Hm as (Hr & Hc & _). rewrite <- Hr, <- Hc. apply alike_final, salike_for2; [apply Mat_new_alike|]. intros i j t t' _ _ Ht.
  eapply salike_eval; [apply entry_alike, Hm|]. intros a a' Ha. apply set_entry_alike; auto.
Qed.
End Sim.
