(** Vec and Mat of elements whose operators do the same wherever the first ones do not fail an
    assertion: the same holds for Vec and Mat. The lemmas are those of ContReleaseProofs.v, for
    a relation that asks nothing of the second run where the first one fails an assertion. *)
From Verif Require Import Base IntModel ElemModel ElemSpec ElemProofs VecModel MatModel SimSpec SimProofs.
Local Open Scope nat_scope.

Definition agrees {A B} (R : A -> B -> Prop) (m : res A) (m' : res B) : Prop :=
  match m, m' with
  | Ok a, Ok b => R a b
  | Throw e, Throw e' => e = e'
  | Abort, _ => True
  | UB, UB => True
  | OutOfFuel, OutOfFuel => True
  | _, _ => False
  end.
(** statements *)
Definition sagrees {A B} (R : A -> B -> Prop) (p : outcome A) (p' : outcome B) : Prop := agrees R (final p) (final p').
(** matrices whose entries are related; an entry without a value is related to none *)
Definition mat_agrees {A B} (R : A -> B -> Prop) (x : Mat A) (y : Mat B) : Prop :=
  rows x = rows y /\ cols x = cols y /\ Forall2 (option_rel R) (data x) (data y).

Record ring_agrees {A B} (R : A -> B -> Prop) (E : ops A) (E' : ops B) : Prop := {
  ag_const : forall k, In k [0; 1; -1]%Z -> R (of_int E k) (of_int E' k);
  ag_fresh : option_rel R (fresh E) (fresh E');
  ag_add : forall x y x' y', R x x' -> R y y' -> agrees R (add E x y) (add E' x' y');
  ag_sub : forall x y x' y', R x x' -> R y y' -> agrees R (sub E x y) (sub E' x' y');
  ag_mul : forall x y x' y', R x x' -> R y y' -> agrees R (mul E x y) (mul E' x' y');
  ag_neg : forall x x', R x x' -> agrees R (neg E x) (neg E' x');
  ag_eqb : forall x y x' y', R x x' -> R y y' -> agrees eq (eqb E x y) (eqb E' x' y');
  ag_addA : forall x y x' y', R x x' -> option_rel R y y' -> agrees R (addA E x y) (addA E' x' y');
  ag_subA : forall x y x' y', R x x' -> option_rel R y y' -> agrees R (subA E x y) (subA E' x' y')
}.
Record div_agrees {A B} (R : A -> B -> Prop) (E : ops A) (E' : ops B) : Prop := {
  ag_div : forall x y x' y', R x x' -> R y y' -> agrees R (div E x y) (div E' x' y');
  ag_divA : forall x y x' y', R x x' -> option_rel R y y' -> agrees R (divA E x y) (divA E' x' y')
}.
Record prod_agrees {A B} (R R0 : A -> B -> Prop) (E : ops A) (E' : ops B) : Prop := {
  ag_weaker : forall x x', R x x' -> R0 x x';
  ag_mulA : forall x y x' y', R0 x x' -> R y y' -> agrees R0 (mulA E x (Some y)) (mulA E' x' (Some y'));
  ag_ratio : forall x y x' y', R0 x x' -> R0 y y' -> agrees R (div E x y) (div E' x' y')
}.


Ltac stop := first [exact Logic.I | reflexivity].

Section Basics.
Section Gen.
Context {A B : Type}.
Lemma agrees_ok (R : A -> B -> Prop) a b : R a b -> agrees R (Ok a) (Ok b).
Proof. intros H. exact H. Qed.
Lemma sagrees_done (R : A -> B -> Prop) a b : R a b -> sagrees R (done a) (done b).
Proof. intros H. exact H. Qed.
Lemma agrees_final (R : A -> B -> Prop) p p' : sagrees R p p' -> agrees R (final p) (final p').
Proof. intros H. exact H. Qed.
Lemma agrees_mono (R R' : A -> B -> Prop) m m' : agrees R m m' -> (forall a b, R a b -> R' a b) -> agrees R' m m'.
Proof. intros H HR. destruct m, m'; cbn in *; try contradiction; auto. Qed.
End Gen.
Lemma agrees_bind {A B A' B'} (R : A -> B -> Prop) (Q : A' -> B' -> Prop) m m' f f' :
  agrees R m m' -> (forall a b, R a b -> agrees Q (f a) (f' b)) -> agrees Q (x <- m ;; f x) (x <- m' ;; f' x).
Proof. intros H K. destruct m, m'; cbn in *; try contradiction; auto. Qed.
Lemma sagrees_eval {A B S S'} (R : A -> B -> Prop) (Q : S -> S' -> Prop) s s' m m' k k' :
  agrees R m m' -> (forall a b, R a b -> sagrees Q (k a) (k' b)) -> sagrees Q (eval s m k) (eval s' m' k').
Proof. intros H K. destruct m, m'; cbn in *; try contradiction; auto. Qed.
Lemma sagrees_andthen {S S'} (P Q : S -> S' -> Prop) p p' k k' :
  sagrees P p p' -> (forall a b, P a b -> sagrees Q (k a) (k' b)) -> sagrees Q (andthen p k) (andthen p' k').
Proof. intros H K. destruct p as [x [[]|?| | |]], p' as [x' [[]|?| | |]]; cbn in *; try contradiction; auto. Qed.
Lemma sagrees_for {S S'} (Q : S -> S' -> Prop) n : forall a body body' s s', Q s s' ->
  (forall i t t', a <= i < a + n -> Q t t' -> sagrees Q (body i t) (body' i t')) -> sagrees Q (for_ n a body s) (for_ n a body' s').
Proof.
  induction n as [|n IH]; intros a body body' s s' H HB; cbn [for_]; [apply sagrees_done, H|].
  eapply sagrees_andthen; [apply HB; [lia|exact H]|]. intros t t' Ht. apply IH; [exact Ht|]. intros i u u' Hi. apply HB. lia.
Qed.
Lemma sagrees_for2 {S S'} (Q : S -> S' -> Prop) r c body body' s s' : Q s s' ->
  (forall i j t t', i < r -> j < c -> Q t t' -> sagrees Q (body i j t) (body' i j t')) -> sagrees Q (for2 r c body s) (for2 r c body' s').
Proof.
  intros H HB. unfold for2. apply sagrees_for; [exact H|]. intros i t t' Hi Ht. apply sagrees_for; [exact Ht|]. intros j u u' Hj Hu. apply HB; auto; lia.
Qed.
End Basics.

Section Sim.
Context {A B : Type} (R : A -> B -> Prop) (E : ops A) (E' : ops B).
Hypothesis HR : ring_agrees R E E'.
Hypothesis HD : div_agrees R E E'.
Context (R0 : A -> B -> Prop).
Hypothesis HP : prod_agrees R R0 E E'.
Local Notation VR := (vec_sim R).
Local Notation MR := (mat_agrees R).

(** *** lists *)
Lemma get_at_agrees x x' i : VR x x' -> agrees R (get_at x i) (get_at x' i).
Proof.
  intros H. unfold get_at. revert i. induction H as [|a b x x' Hab Hx IH]; intros [|i]; cbn; try (stop); [apply agrees_ok, Hab|apply IH].
Qed.
Lemma replace_agrees {C D} (Q : C -> D -> Prop) x x' i a b : Forall2 Q x x' -> Q a b -> Forall2 Q (replace x i a) (replace x' i b).
Proof. intros H Hab. revert i. induction H as [|c d x x' Hcd Hx IH]; intros [|i]; cbn; constructor; auto. Qed.
Lemma repeat_agrees {C D} (Q : C -> D -> Prop) a b n : Q a b -> Forall2 Q (repeat a n) (repeat b n).
Proof. intros H. induction n; cbn; constructor; auto. Qed.
Lemma const_agrees k : k = 0%Z \/ k = 1%Z \/ k = (-1)%Z -> R (of_int E k) (of_int E' k).
Proof. intros H. apply (ag_const _ _ _ HR). cbn. intuition. Qed.
Lemma zero_agrees : R (of_int E 0) (of_int E' 0).
Proof. apply const_agrees. auto. Qed.
Lemma one_agrees : R (of_int E 1) (of_int E' 1).
Proof. apply const_agrees. auto. Qed.

(** *** Vec *)
Lemma assign_at_agrees op op' x x' i y y' : (forall a b a' b', R a a' -> option_rel R b b' -> agrees R (op a b) (op' a' b')) ->
  VR x x' -> option_rel R y y' -> sagrees VR (assign_at op x i y) (assign_at op' x' i y').
Proof.
  intros Hop Hx Hy. unfold assign_at. eapply sagrees_eval.
  - eapply agrees_bind; [apply get_at_agrees, Hx|]. intros a b Hab. apply Hop; auto.
  - intros a b Hab. apply sagrees_done, replace_agrees; auto.
Qed.
Lemma vec_binary_agrees op op' x x' y y' : (forall a b a' b', R a a' -> option_rel R b b' -> agrees R (op a b) (op' a' b')) ->
  VR x x' -> VR y y' -> agrees VR (vec_binary op x y) (vec_binary op' x' y').
Proof.
  intros Hop Hx Hy. unfold vec_binary. rewrite <- (sim_length Hx), <- (sim_length Hy). destruct (negb _); [stop|].
  apply agrees_final, sagrees_for; [exact Hx|]. intros i t t' _ Ht. eapply sagrees_eval; [apply get_at_agrees, Hy|]. intros a b Hab. apply assign_at_agrees; auto.
Qed.
Lemma vec_assign_agrees op op' x x' y y' : (forall a b a' b', R a a' -> option_rel R b b' -> agrees R (op a b) (op' a' b')) ->
  VR x x' -> option_rel VR y y' -> sagrees VR (vec_assign op x y) (vec_assign op' x' y').
Proof.
  intros Hop Hx Hy. unfold vec_assign.
  assert (L : length (rd x y) = length (rd x' y')).
  { destruct y as [y|], y' as [y'|]; cbn in *; try contradiction; [apply (sim_length Hy)|apply (sim_length Hx)]. }
  rewrite <- L, <- (sim_length Hx). destruct (negb _); [stop|].
  apply sagrees_for; [exact Hx|]. intros i t t' _ Ht. eapply sagrees_eval.
  - destruct y as [y|], y' as [y'|]; cbn in *; try contradiction; [apply get_at_agrees, Hy|apply get_at_agrees, Ht].
  - intros a b Hab. apply assign_at_agrees; auto.
Qed.
Lemma scale_assign_agrees op op' x x' s s' : (forall a b a' b', R a a' -> option_rel R b b' -> agrees R (op a b) (op' a' b')) ->
  VR x x' -> scalar_sim R s s' -> sagrees VR (scale_assign op x s) (scale_assign op' x' s').
Proof.
  intros Hop Hx Hs. unfold scale_assign. rewrite <- (sim_length Hx). apply sagrees_for; [exact Hx|]. intros i t t' _ Ht.
  destruct s as [a|k], s' as [a'|k']; cbn in Hs; try contradiction; [apply assign_at_agrees; auto|subst k'].
  destruct (i =? k); [apply assign_at_agrees; cbn; auto|]. eapply sagrees_eval; [apply get_at_agrees, Ht|]. intros a b Hab. apply assign_at_agrees; auto.
Qed.
Lemma dot_agrees x x' y y' : VR x x' -> VR y y' -> agrees R (dot E x y) (dot E' x' y').
Proof.
  intros Hx Hy. unfold dot. rewrite <- (sim_length Hx), <- (sim_length Hy). destruct (negb _); [stop|].
  apply agrees_final, sagrees_for; [apply zero_agrees|]. intros i t t' _ Ht. eapply sagrees_eval; [|intros a b Hab; apply sagrees_done, Hab].
  eapply agrees_bind; [apply get_at_agrees, Hx|]. intros a a' Ha. eapply agrees_bind; [apply get_at_agrees, Hy|]. intros b b' Hb.
  eapply agrees_bind; [apply (ag_mul _ _ _ HR); eauto|]. intros p p' Hp. apply (ag_addA _ _ _ HR); auto.
Qed.
Lemma minor_agrees x x' y y' i j : VR x x' -> VR y y' -> agrees R (minor E x y i j) (minor E' x' y' i j).
Proof.
  intros Hx Hy. unfold minor. eapply agrees_bind; [apply get_at_agrees, Hx|]. intros a a' Ha. eapply agrees_bind; [apply get_at_agrees, Hy|]. intros b b' Hb.
  eapply agrees_bind; [apply (ag_mul _ _ _ HR); eauto|]. intros p p' Hp.
  eapply agrees_bind; [apply get_at_agrees, Hx|]. intros c c' Hc. eapply agrees_bind; [apply get_at_agrees, Hy|]. intros d d' Hd.
  eapply agrees_bind; [apply (ag_mul _ _ _ HR); eauto|]. intros q q' Hq. apply (ag_sub _ _ _ HR); auto.
Qed.
Lemma cross_agrees x x' y y' : VR x x' -> VR y y' -> agrees VR (cross E x y) (cross E' x' y').
Proof.
  intros Hx Hy. unfold cross. rewrite <- (sim_length Hx), <- (sim_length Hy). destruct (negb _); [stop|].
  eapply agrees_bind; [apply minor_agrees; eauto|]. intros a a' Ha. eapply agrees_bind; [apply minor_agrees; eauto|]. intros b b' Hb.
  eapply agrees_bind; [apply minor_agrees; eauto|]. intros c c' Hc. cbn. apply agrees_ok. repeat constructor; auto.
Qed.
Lemma eq_loop_agrees x x' y y' : VR x x' -> VR y y' -> forall n i, agrees eq (eq_loop E n i x y) (eq_loop E' n i x' y').
Proof.
  intros Hx Hy. induction n as [|n IH]; intros i; cbn [eq_loop]; [apply agrees_ok; auto|].
  eapply agrees_bind; [apply get_at_agrees, Hx|]. intros a a' Ha. eapply agrees_bind; [apply get_at_agrees, Hy|]. intros b b' Hb.
  eapply agrees_bind; [apply (ag_eqb _ _ _ HR); eauto|]. intros e e' <-. destruct e; [apply IH|apply agrees_ok; auto].
Qed.
Lemma V_eq_agrees x x' y y' : VR x x' -> VR y y' -> agrees eq (V_eq E x y) (V_eq E' x' y').
Proof.
  intros Hx Hy. unfold V_eq. rewrite <- (sim_length Hx), <- (sim_length Hy). destruct (negb _); [apply agrees_ok; auto|apply eq_loop_agrees; auto].
Qed.

(** *** Mat *)
Lemma read_agrees p p' k : Forall2 (option_rel R) p p' -> agrees R (read p k) (read p' k).
Proof.
  intros H. unfold read. revert k. induction H as [|a b x x' Hab Hx IH]; intros [|k]; cbn; try (stop).
  - destruct a as [a|], b as [b|]; try contradiction; [apply agrees_ok, Hab|stop].
  - apply IH.
Qed.
Lemma entry_agrees m m' i j : MR m m' -> agrees R (entry m i j) (entry m' i j).
Proof. intros (Hr & Hc & Hd). unfold entry, offset. rewrite Hc. apply read_agrees, Hd. Qed.
Lemma set_entry_agrees m m' i j x x' : MR m m' -> R x x' -> sagrees MR (set_entry m i j x) (set_entry m' i j x').
Proof.
  intros (Hr & Hc & Hd) Hx. unfold set_entry, offset. rewrite Hc, <- (sim_length Hd). destruct (_ <? _); [|stop].
  apply sagrees_done. split; [exact Hr|]. split; [reflexivity|]. cbn. apply replace_agrees; auto.
Qed.
Lemma assign_entry_agrees op op' m m' i j y y' : (forall a b a' b', R a a' -> option_rel R b b' -> agrees R (op a b) (op' a' b')) ->
  MR m m' -> option_rel R y y' -> sagrees MR (assign_entry op m i j y) (assign_entry op' m' i j y').
Proof.
  intros Hop Hm Hy. unfold assign_entry. eapply sagrees_eval.
  - eapply agrees_bind; [apply entry_agrees, Hm|]. intros a b Hab. apply Hop; auto.
  - intros a b Hab. apply set_entry_agrees; auto.
Qed.
Lemma fill_agrees r c f f' m m' : MR m m' -> (forall i j, i < r -> j < c -> agrees R (f i j) (f' i j)) -> sagrees MR (fill r c f m) (fill r c f' m').
Proof.
  intros Hm Hf. unfold fill. apply sagrees_for2; [exact Hm|]. intros i j t t' Hi Hj Ht. eapply sagrees_eval; [apply Hf; auto|]. intros a b Hab. apply set_entry_agrees; auto.
Qed.
Lemma Mat_new_agrees r c : MR (Mat_new E r c) (Mat_new E' r c).
Proof. split; [reflexivity|]. split; [reflexivity|]. apply repeat_agrees, (ag_fresh _ _ _ HR). Qed.
Lemma setEntries_agrees m m' p p' n : MR m m' -> Forall2 (option_rel R) p p' -> sagrees MR (setEntries_ptr m p n) (setEntries_ptr m' p' n).
Proof.
  intros Hm Hp. unfold setEntries_ptr. pose proof Hm as (Hr & Hc & _). rewrite <- Hr, <- Hc. destruct (_ <? _); [stop|].
  apply fill_agrees; auto. intros i j _ _. unfold offset. rewrite <- Hc. apply read_agrees, Hp.
Qed.
Lemma Mat_copy_agrees m m' : MR m m' -> agrees MR (Mat_copy E m) (Mat_copy E' m').
Proof. intros (Hr & Hc & Hd). unfold Mat_copy. rewrite <- Hr, <- Hc. apply agrees_final, setEntries_agrees; [apply Mat_new_agrees|exact Hd]. Qed.
Lemma Mat_val_agrees r c v v' : R v v' -> agrees MR (Mat_val E r c v) (Mat_val E' r c v').
Proof. intros H. unfold Mat_val, mat_setEntries_val. apply agrees_final. cbn [rows cols Mat_new]. apply fill_agrees; [apply Mat_new_agrees|]. intros i j _ _. apply agrees_ok, H. Qed.
Lemma same_dims_agrees a a' b b' : MR a a' -> MR b b' -> same_dims a b = same_dims a' b'.
Proof. intros (H1 & H2 & _) (H3 & H4 & _). unfold same_dims. congruence. Qed.
Lemma M_neg_agrees m m' : MR m m' -> agrees MR (M_neg E m) (M_neg E' m').
Proof.
  intros Hm. unfold M_neg. pose proof Hm as (Hr & Hc & _). rewrite <- Hr, <- Hc. apply agrees_final, fill_agrees; [apply Mat_new_agrees|]. intros i j _ _.
  eapply agrees_bind; [apply entry_agrees, Hm|]. intros a b Hab. apply (ag_neg _ _ _ HR), Hab.
Qed.
Lemma mat_binary_agrees op op' x x' y y' : (forall a b a' b', R a a' -> R b b' -> agrees R (op a b) (op' a' b')) ->
  MR x x' -> MR y y' -> agrees MR (mat_binary E op x y) (mat_binary E' op' x' y').
Proof.
  intros Hop Hx Hy. unfold mat_binary. rewrite <- (same_dims_agrees x x' y y' Hx Hy). destruct (negb _); [stop|].
  pose proof Hx as (Hr & Hc & _). rewrite <- Hr, <- Hc. apply agrees_final, fill_agrees; [apply Mat_new_agrees|]. intros i j _ _.
  eapply agrees_bind; [apply entry_agrees, Hx|]. intros a a' Ha. eapply agrees_bind; [apply entry_agrees, Hy|]. intros b b' Hb. apply Hop; auto.
Qed.
Lemma mat_assign_agrees op op' x x' y y' : (forall a b a' b', R a a' -> option_rel R b b' -> agrees R (op a b) (op' a' b')) ->
  MR x x' -> option_rel MR y y' -> sagrees MR (mat_assign op x y) (mat_assign op' x' y').
Proof.
  intros Hop Hx Hy. unfold mat_assign. pose proof Hx as (Hr & Hc & _). rewrite <- Hr, <- Hc.
  assert (L : same_dims x (rd x y) = same_dims x' (rd x' y')).
  { destruct y as [y|], y' as [y'|]; cbn in *; try contradiction; apply same_dims_agrees; auto. }
  rewrite <- L. destruct (negb _); [stop|].
  apply sagrees_for2; [exact Hx|]. intros i j t t' _ _ Ht. eapply sagrees_eval.
  - destruct y as [y|], y' as [y'|]; cbn in *; try contradiction; [apply entry_agrees, Hy|apply entry_agrees, Ht].
  - intros a b Hab. apply assign_entry_agrees; auto.
Qed.
Lemma M_scale_agrees s s' m m' : R s s' -> MR m m' -> agrees MR (M_scale E s m) (M_scale E' s' m').
Proof.
  intros Hs Hm. unfold M_scale. pose proof Hm as (Hr & Hc & _). rewrite <- Hr, <- Hc. apply agrees_final, fill_agrees; [apply Mat_new_agrees|]. intros i j _ _.
  eapply agrees_bind; [apply entry_agrees, Hm|]. intros a b Hab. apply (ag_mul _ _ _ HR); auto.
Qed.
Lemma M_div_agrees s s' m m' : R s s' -> MR m m' -> agrees MR (M_div E m s) (M_div E' m' s').
Proof.
  intros Hs Hm. unfold M_div. pose proof Hm as (Hr & Hc & _). rewrite <- Hr, <- Hc. apply agrees_final, fill_agrees; [apply Mat_new_agrees|]. intros i j _ _.
  eapply agrees_bind; [apply entry_agrees, Hm|]. intros a b Hab. apply (ag_div _ _ _ HD); auto.
Qed.
Lemma mat_scale_assign_agrees op op' m m' s s' : (forall a b a' b', R a a' -> option_rel R b b' -> agrees R (op a b) (op' a' b')) ->
  MR m m' -> mscalar_sim R s s' -> sagrees MR (mat_scale_assign op m s) (mat_scale_assign op' m' s').
Proof.
  intros Hop Hm Hs. unfold mat_scale_assign. pose proof Hm as (Hr & Hc & _). rewrite <- Hr, <- Hc. apply sagrees_for2; [exact Hm|]. intros i j t t' _ _ Ht.
  destruct s as [a|k l], s' as [a'|k' l']; cbn in Hs; try contradiction; [apply assign_entry_agrees; auto|destruct Hs; subst k' l'].
  destruct (_ && _)%bool; [apply assign_entry_agrees; cbn; auto|]. eapply sagrees_eval; [apply entry_agrees, Ht|]. intros a b Hab. apply assign_entry_agrees; auto.
Qed.
Lemma M_product_agrees x x' y y' : MR x x' -> MR y y' -> agrees MR (M_product E x y) (M_product E' x' y').
Proof.
  intros Hx Hy. unfold M_product. pose proof Hx as (Hr & Hc & _). pose proof Hy as (Hr' & Hc' & _). rewrite <- Hr, <- Hc, <- Hr', <- Hc'.
  destruct (negb _); [stop|]. eapply agrees_bind; [apply Mat_val_agrees, zero_agrees|]. intros r r' H.
  apply agrees_final, sagrees_for; [exact H|]. intros i t t' _ Ht. apply sagrees_for; [exact Ht|]. intros k u u' _ Hu. apply sagrees_for; [exact Hu|]. intros j w w' _ Hw.
  eapply sagrees_eval.
  - eapply agrees_bind; [apply entry_agrees, Hx|]. intros a a' Ha. eapply agrees_bind; [apply entry_agrees, Hy|]. intros b b' Hb. apply (ag_mul _ _ _ HR); eauto.
  - intros p p' Hp. apply assign_entry_agrees; auto. apply (ag_addA _ _ _ HR).
Qed.
Lemma all_agrees p p' : (forall i, agrees eq (p i) (p' i)) -> forall n i, agrees eq (all_ n i p) (all_ n i p').
Proof.
  intros H. induction n as [|n IH]; intros i; cbn [all_]; [apply agrees_ok; auto|]. eapply agrees_bind; [apply H|]. intros e e' <-. destruct e; [apply IH|apply agrees_ok; auto].
Qed.
Lemma M_eq_agrees x x' y y' : MR x x' -> MR y y' -> agrees eq (M_eq E x y) (M_eq E' x' y').
Proof.
  intros Hx Hy. unfold M_eq. rewrite <- (same_dims_agrees x x' y y' Hx Hy). destruct (negb _); [apply agrees_ok; auto|].
  pose proof Hx as (Hr & Hc & _). rewrite <- Hr, <- Hc. apply all_agrees. intros i. apply all_agrees. intros j.
  eapply agrees_bind; [apply entry_agrees, Hx|]. intros a a' Ha. eapply agrees_bind; [apply entry_agrees, Hy|]. intros b b' Hb. apply (ag_eqb _ _ _ HR); auto.
Qed.
Lemma first_minor_agrees m m' i j : MR m m' -> agrees MR (first_minor E m i j) (first_minor E' m' i j).
Proof.
  intros Hm. unfold first_minor. pose proof Hm as (Hr & Hc & _). rewrite <- Hr, <- Hc. destruct (_ || _)%bool; [stop|].
  apply agrees_final, fill_agrees; [apply Mat_new_agrees|]. intros k l _ _. apply entry_agrees, Hm.
Qed.
Lemma cofactor_agrees m m' i j : MR m m' -> agrees MR (cofactor E m i j) (cofactor E' m' i j).
Proof.
  intros Hm. unfold cofactor. eapply agrees_bind; [apply first_minor_agrees, Hm|]. intros a b Hab. destruct (_ =? _); [apply M_neg_agrees, Hab|apply agrees_ok, Hab].
Qed.
Lemma det2_agrees m m' : MR m m' -> agrees R (det2 E m) (det2 E' m').
Proof.
  intros (_ & _ & Hd). unfold det2. eapply agrees_bind; [apply read_agrees, Hd|]. intros a a' Ha. eapply agrees_bind; [apply read_agrees, Hd|]. intros b b' Hb.
  eapply agrees_bind; [apply (ag_mul _ _ _ HR); eauto|]. intros p p' Hp.
  eapply agrees_bind; [apply read_agrees, Hd|]. intros c c' Hc. eapply agrees_bind; [apply read_agrees, Hd|]. intros d d' Hd'.
  eapply agrees_bind; [apply (ag_mul _ _ _ HR); eauto|]. intros q q' Hq. apply (ag_sub _ _ _ HR); auto.
Qed.
Lemma expansion_agrees rec rec' m m' n ent ent' mnr mnr' : (forall s s', MR s s' -> agrees R (rec s) (rec' s')) -> MR m m' ->
  (forall k, agrees R (ent k) (ent' k)) -> (forall k, agrees MR (mnr k) (mnr' k)) -> agrees R (expansion E rec m n ent mnr) (expansion E' rec' m' n ent' mnr').
Proof.
  intros Hrec Hm He Hn. unfold expansion. pose proof Hm as (Hr & Hc & Hd). rewrite <- Hr, <- Hc. destruct (negb _); [stop|].
  destruct (_ =? 1); [apply read_agrees, Hd|]. destruct (_ =? 2); [apply det2_agrees, Hm|].
  apply agrees_final, sagrees_for; [apply zero_agrees|]. intros k t t' _ Ht. eapply sagrees_eval; [apply He|]. intros x x' Hx.
  eapply sagrees_eval; [apply (ag_eqb _ _ _ HR); [exact Hx|apply zero_agrees]|]. intros z z' <-. destruct z; [apply sagrees_done, Ht|].
  eapply sagrees_eval; [|intros a b Hab; apply sagrees_done, Hab]. eapply agrees_bind; [apply Hn|]. intros s s' Hs. eapply agrees_bind; [apply Hrec, Hs|]. intros d d' Hd'.
  eapply agrees_bind; [apply (ag_mul _ _ _ HR); eauto|]. intros p p' Hp. destruct (_ =? 1); [apply (ag_subA _ _ _ HR)|apply (ag_addA _ _ _ HR)]; auto.
Qed.
Lemma row_expansion_agrees fuel : forall m m', MR m m' -> agrees R (row_expansion E fuel m) (row_expansion E' fuel m').
Proof.
  induction fuel as [|f IH]; intros m m' Hm; cbn [row_expansion]; [stop|]. pose proof Hm as (_ & Hc & _). rewrite <- Hc.
  apply expansion_agrees; auto; intros k; [apply entry_agrees, Hm|apply first_minor_agrees, Hm].
Qed.
Lemma col_expansion_agrees fuel : forall m m', MR m m' -> agrees R (col_expansion E fuel m) (col_expansion E' fuel m').
Proof.
  induction fuel as [|f IH]; intros m m' Hm; cbn [col_expansion]; [stop|]. pose proof Hm as (Hr & _ & _). rewrite <- Hr.
  apply expansion_agrees; auto; intros k; [apply entry_agrees, Hm|apply first_minor_agrees, Hm].
Qed.
Lemma row_cofactor_expansion_agrees m m' : MR m m' -> agrees R (row_cofactor_expansion E m) (row_cofactor_expansion E' m').
Proof. intros Hm. unfold row_cofactor_expansion. pose proof Hm as (Hr & _). rewrite <- Hr. apply row_expansion_agrees, Hm. Qed.
Lemma col_cofactor_expansion_agrees m m' : MR m m' -> agrees R (col_cofactor_expansion E m) (col_cofactor_expansion E' m').
Proof. intros Hm. unfold col_cofactor_expansion. pose proof Hm as (Hr & _). rewrite <- Hr. apply col_expansion_agrees, Hm. Qed.

(** *** Elimination *)
Lemma swap_rows_agrees m m' a b : MR m m' -> sagrees MR (swap_rows m a b) (swap_rows m' a b).
Proof.
  intros Hm. unfold swap_rows. destruct (a =? b); [apply sagrees_done, Hm|]. pose proof Hm as (_ & Hc & _). rewrite <- Hc.
  apply sagrees_for; [exact Hm|]. intros k t t' _ Ht. eapply sagrees_eval; [apply entry_agrees, Ht|]. intros x x' Hx. eapply sagrees_eval; [apply entry_agrees, Ht|]. intros y y' Hy.
  eapply sagrees_andthen; [apply set_entry_agrees; eauto|]. intros u u' Hu. apply set_entry_agrees; auto.
Qed.
Lemma find_pivot_agrees m m' r : MR m m' -> forall fuel i p, agrees eq (find_pivot E fuel m r i p) (find_pivot E' fuel m' r i p).
Proof.
  intros Hm. pose proof Hm as (Hr & Hc & _). induction fuel as [|f IH]; intros i p; cbn [find_pivot]; [stop|].
  eapply agrees_bind; [apply entry_agrees, Hm|]. intros a a' Ha. eapply agrees_bind; [apply (ag_eqb _ _ _ HR); [exact Ha|apply zero_agrees]|]. intros z z' <-.
  destruct z; [|apply agrees_ok; auto]. rewrite <- Hr, <- Hc. destruct (rows m =? i + 1); [|apply IH]. destruct (cols m =? p + 1); [apply agrees_ok; auto|apply IH].
Qed.
Lemma for_to_agrees {S S'} (Q : S -> S' -> Prop) a b body body' s s' : Q s s' ->
  (forall i t t', Q t t' -> sagrees Q (body i t) (body' i t')) -> sagrees Q (for_to a b body s) (for_to a b body' s').
Proof. intros H HB. unfold for_to. apply sagrees_for; auto. Qed.
Lemma det_clear_agrees m m' r p : MR m m' -> sagrees MR (det_clear E m r p) (det_clear E' m' r p).
Proof.
  intros Hm. unfold det_clear. pose proof Hm as (Hr & _). rewrite <- Hr. apply for_to_agrees; [exact Hm|]. intros i t t' Ht.
  destruct (i =? r); [apply sagrees_done, Ht|]. eapply sagrees_eval; [apply entry_agrees, Ht|]. intros v v' Hv. pose proof Ht as (_ & Hc & _). rewrite <- Hc.
  apply for_to_agrees; [exact Ht|]. intros j u u' Hu. eapply sagrees_eval.
  - eapply agrees_bind; [apply entry_agrees, Hu|]. intros a a' Ha. eapply agrees_bind; [apply (ag_mul _ _ _ HR); eauto|]. intros q q' Hq.
    eapply agrees_bind; [apply entry_agrees, Hu|]. intros b b' Hb. apply (ag_div _ _ _ HD); eauto.
  - intros q q' Hq. apply assign_entry_agrees; auto. apply (ag_subA _ _ _ HR).
Qed.
Definition pair_agrees (x : Mat A * A) (y : Mat B * B) : Prop := MR (fst x) (fst y) /\ R0 (snd x) (snd y).
Lemma det_rows_agrees n : forall r m m' f f' p, MR m m' -> R0 f f' -> agrees pair_agrees (det_rows E n r m f p) (det_rows E' n r m' f' p).
Proof.
  induction n as [|n IH]; intros r m m' f f' p Hm Hf; cbn [det_rows]; [apply agrees_ok; split; auto|].
  pose proof Hm as (Hr & Hc & _). unfold pivot_fuel. rewrite <- Hr, <- Hc. destruct (cols m <=? p); [apply agrees_ok; split; auto|].
  eapply agrees_bind; [apply find_pivot_agrees, Hm|]. intros o o' <-. destruct o as [[i q]|]; [|apply agrees_ok; split; auto].
  eapply agrees_bind with (R := pair_agrees).
  - destruct (i =? r); [apply agrees_ok; split; auto|]. eapply agrees_bind; [apply agrees_final, swap_rows_agrees, Hm|]. intros t t' Ht.
    eapply agrees_bind; [apply (ag_mulA _ _ _ _ HP); [exact Hf|apply const_agrees; auto]|]. intros g g' Hg. apply agrees_ok. split; auto.
  - intros [t g] [t' g'] [Ht Hg]. cbn [fst snd] in *. eapply agrees_bind; [apply agrees_final, det_clear_agrees, Ht|]. intros u u' Hu. apply IH; auto.
Qed.
Lemma determinant_agrees m m' : MR m m' -> agrees R (determinant E m) (determinant E' m').
Proof.
  intros Hm. unfold determinant. pose proof Hm as (Hr & Hc & Hd). rewrite <- Hr, <- Hc. destruct (negb _); [stop|].
  destruct (_ =? 1); [apply read_agrees, Hd|]. destruct (_ =? 2); [apply det2_agrees, Hm|].
  eapply agrees_bind; [apply Mat_copy_agrees, Hm|]. intros t t' Ht. pose proof Ht as (Hr' & _). rewrite <- Hr'.
  eapply agrees_bind; [apply det_rows_agrees; [exact Ht|apply (ag_weaker _ _ _ _ HP), one_agrees]|]. intros [u f] [u' f'] [Hu Hf]. cbn [fst snd] in *. pose proof Hu as (Hr2 & _). rewrite <- Hr2.
  eapply agrees_bind.
  - apply agrees_final, sagrees_for; [apply (ag_weaker _ _ _ _ HP), one_agrees|]. intros i p p' _ Hp. eapply sagrees_eval; [|intros a b Hab; apply sagrees_done, Hab].
    eapply agrees_bind; [apply entry_agrees, Hu|]. intros a a' Ha. apply (ag_mulA _ _ _ _ HP); auto.
  - intros p p' Hp. apply (ag_ratio _ _ _ _ HP); auto.
Qed.
Lemma rref_clear_agrees m m' r p : MR m m' -> sagrees MR (rref_clear E m r p) (rref_clear E' m' r p).
Proof.
  intros Hm. unfold rref_clear. pose proof Hm as (Hr & _). rewrite <- Hr. apply sagrees_for; [exact Hm|]. intros i t t' _ Ht.
  destruct (i =? r); [apply sagrees_done, Ht|]. eapply sagrees_eval; [apply entry_agrees, Ht|]. intros v v' Hv. pose proof Ht as (_ & Hc & _). rewrite <- Hc.
  apply sagrees_for; [exact Ht|]. intros j u u' _ Hu. eapply sagrees_eval.
  - eapply agrees_bind; [apply entry_agrees, Hu|]. intros a a' Ha. apply (ag_mul _ _ _ HR); eauto.
  - intros q q' Hq. apply assign_entry_agrees; auto. apply (ag_subA _ _ _ HR).
Qed.
Lemma rref_rows_agrees n : forall r p m m', MR m m' -> sagrees MR (rref_rows E n r p m) (rref_rows E' n r p m').
Proof.
  induction n as [|n IH]; intros r p m m' Hm; cbn [rref_rows]; [apply sagrees_done, Hm|].
  pose proof Hm as (Hr & Hc & _). unfold pivot_fuel. rewrite <- Hr, <- Hc. destruct (cols m <=? p); [apply sagrees_done, Hm|].
  eapply sagrees_eval; [apply find_pivot_agrees, Hm|]. intros o o' <-. destruct o as [[i q]|]; [|apply sagrees_done, Hm].
  eapply sagrees_andthen; [apply swap_rows_agrees, Hm|]. intros t t' Ht. eapply sagrees_eval; [apply entry_agrees, Ht|]. intros v v' Hv.
  pose proof Ht as (_ & Hc' & _). rewrite <- Hc'. eapply sagrees_andthen.
  - apply sagrees_for; [exact Ht|]. intros j u u' _ Hu. apply assign_entry_agrees; auto. apply (ag_divA _ _ _ HD).
  - intros u u' Hu. eapply sagrees_andthen; [apply rref_clear_agrees, Hu|]. intros w w' Hw. apply IH, Hw.
Qed.
Lemma inplace_rref_agrees m m' : MR m m' -> sagrees MR (inplace_rref E m) (inplace_rref E' m').
Proof. intros Hm. unfold inplace_rref. pose proof Hm as (Hr & _). rewrite <- Hr. apply rref_rows_agrees, Hm. Qed.
Lemma rref_agrees m m' : MR m m' -> agrees MR (rref E m) (rref E' m').
Proof. intros Hm. unfold rref. eapply agrees_bind; [apply Mat_copy_agrees, Hm|]. intros t t' Ht. apply agrees_final, inplace_rref_agrees, Ht. Qed.
Lemma identity_agrees n : agrees MR (identityMatrix E n) (identityMatrix E' n).
Proof.
  unfold identityMatrix. eapply agrees_bind; [apply Mat_val_agrees, zero_agrees|]. intros r r' Hr. apply agrees_final, sagrees_for; [exact Hr|]. intros i t t' _ Ht.
  apply set_entry_agrees; auto. apply one_agrees.
Qed.
Lemma augmented_agrees x x' y y' : MR x x' -> MR y y' -> agrees MR (augmentedMatrix E x y) (augmentedMatrix E' x' y').
Proof.
  intros Hx Hy. unfold augmentedMatrix. pose proof Hx as (Hr & Hc & _). pose proof Hy as (Hr' & Hc' & _). rewrite <- Hr, <- Hc, <- Hr', <- Hc'.
  destruct (negb _); [stop|]. apply agrees_final, sagrees_for; [apply Mat_new_agrees|]. intros i t t' _ Ht.
  eapply sagrees_andthen.
  - apply sagrees_for; [exact Ht|]. intros j u u' _ Hu. eapply sagrees_eval; [apply entry_agrees, Hx|]. intros a a' Ha. apply set_entry_agrees; auto.
  - intros u u' Hu. apply sagrees_for; [exact Hu|]. intros j w w' _ Hw. eapply sagrees_eval; [apply entry_agrees, Hy|]. intros a a' Ha. apply set_entry_agrees; auto.
Qed.
Lemma inverse_agrees m m' : MR m m' -> agrees MR (inverse E m) (inverse E' m').
Proof.
  intros Hm. unfold inverse. pose proof Hm as (Hr & Hc & _). rewrite <- Hr, <- Hc. destruct (negb _); [stop|].
  eapply agrees_bind; [apply identity_agrees|]. intros i i' Hi. eapply agrees_bind; [apply augmented_agrees; eauto|]. intros r r' Hr'.
  eapply agrees_bind; [apply agrees_final, inplace_rref_agrees, Hr'|]. intros t t' Ht. apply agrees_final, sagrees_for2; [apply Mat_new_agrees|]. intros k l u u' _ _ Hu.
  eapply sagrees_eval.
  - eapply agrees_bind; [apply entry_agrees, Ht|]. intros a a' Ha. eapply agrees_bind; [apply entry_agrees, Hi|]. intros b b' Hb. apply (ag_eqb _ _ _ HR); eauto.
  - intros e e' <-. destruct e; [|stop]. eapply sagrees_eval; [apply entry_agrees, Ht|]. intros a a' Ha. apply set_entry_agrees; auto.
Qed.
Lemma trace_agrees m m' : MR m m' -> agrees R (trace E m) (trace E' m').
Proof.
  intros Hm. unfold trace. pose proof Hm as (Hr & Hc & _). rewrite <- Hr, <- Hc. destruct (negb _); [stop|].
  apply agrees_final, sagrees_for; [apply zero_agrees|]. intros i t t' _ Ht. eapply sagrees_eval; [|intros a b Hab; apply sagrees_done, Hab].
  eapply agrees_bind; [apply entry_agrees, Hm|]. intros a a' Ha. apply (ag_addA _ _ _ HR); auto.
Qed.
Lemma transpose_agrees m m' : MR m m' -> agrees MR (transpose E m) (transpose E' m').
Proof.
  intros Hm. unfold transpose. pose proof Hm as (Hr & Hc & _). rewrite <- Hr, <- Hc. apply agrees_final, sagrees_for2; [apply Mat_new_agrees|]. intros i j t t' _ _ Ht.
  eapply sagrees_eval; [apply entry_agrees, Hm|]. intros a a' Ha. apply set_entry_agrees; auto.
Qed.
End Sim.
