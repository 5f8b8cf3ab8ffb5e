(** Lemmas about the Mat model, for every element type: what the loops compute,
    entry by entry. *)
From Verif Require Import Base IntModel IOModel ElemModel ElemSpec ElemProofs VecModel VecProofs MatModel MatSpec.
Local Open Scope nat_scope.
Local Open Scope list_scope.

Lemma offset_inj c i j i' j' : j < c -> j' < c -> i * c + j = i' * c + j' -> i = i' /\ j = j'.
Proof.
  intros Hj Hj' H. assert (i = i').
  {
    assert (H1 : (i * c + j) / c = i) by (rewrite Nat.div_add_l by lia; rewrite Nat.div_small by lia; lia).
    assert (H2 : (i' * c + j') / c = i') by (rewrite Nat.div_add_l by lia; rewrite Nat.div_small by lia; lia).
    congruence. }
  subst. lia.
Qed.
Lemma offset_lt r c i j : i < r -> j < c -> i * c + j < r * c.
Proof. nia. Qed.

Section Mats.
Context {T : Type}.
Implicit Types (m : Mat T).

(** entry (i, j) satisfies P i j; it may be uninitialised *)
Definition matP m r c (P : nat -> nat -> option T -> Prop) : Prop :=
  dims m r c /\ forall i j, i < r -> j < c -> exists o, nth_error (data m) (i * c + j) = Some o /\ P i j o.
Lemma matP_mono m r c (P Q : nat -> nat -> option T -> Prop) : matP m r c P -> (forall i j o, i < r -> j < c -> P i j o -> Q i j o) -> matP m r c Q.
Proof. intros [D H] HQ. split; auto. intros i j Hi Hj. destruct (H i j Hi Hj) as (o & E & Ho). eauto. Qed.
Lemma matP_any m r c : dims m r c -> matP m r c (fun _ _ _ => True).
Proof.
  intros D. split; auto. intros i j Hi Hj. destruct D as (_ & _ & L).
  destruct (nth_error (data m) (i * c + j)) eqn:E; [eauto|]. apply nth_error_None in E. pose proof (offset_lt r c i j Hi Hj). lia.
Qed.
Lemma matP_dims m r c P : matP m r c P -> dims m r c.
Proof. intros [H _]. exact H. Qed.

Lemma dims_new (E : ops T) r c : dims (Mat_new E r c) r c.
Proof. unfold dims, Mat_new. cbn. rewrite repeat_length. auto. Qed.

Section With_R.
Context {A : Type} (ab : halt -> Prop) (R : T -> A -> Prop).
Definition holds (P : T -> Prop) (o : option T) : Prop := exists x, o = Some x /\ P x.
Lemma mat_of_P m r c g : mat_of R m r c g <-> matP m r c (fun i j => holds (fun x => R x (g i j))).
Proof.
  unfold mat_of, matP, dims, holds. split.
  - intros (H1 & H2 & H3 & H). split; auto. intros i j Hi Hj. destruct (H i j Hi Hj) as (x & E & Hx). eauto.
  - intros ((H1 & H2 & H3) & H). split; [|split; [|split]]; auto. intros i j Hi Hj. destruct (H i j Hi Hj) as (o & E & x & -> & Hx). eauto.
Qed.
Lemma mat_of_ext m r c g h : mat_of R m r c g -> (forall i j, i < r -> j < c -> g i j = h i j) -> mat_of R m r c h.
Proof. intros (H1 & H2 & H3 & H) Hg. repeat split; auto. intros i j Hi Hj. rewrite <- Hg by auto. auto. Qed.
Lemma mat_of_mono (R' : T -> A -> Prop) m r c g : (forall x a, R x a -> R' x a) -> mat_of R m r c g -> mat_of R' m r c g.
Proof. intros HR (H1 & H2 & H3 & H). repeat split; auto. intros i j Hi Hj. destruct (H i j Hi Hj) as (x & E & Hx). eauto. Qed.
Lemma mat_of_dims m r c g : mat_of R m r c g -> dims m r c.
Proof. intros (H1 & H2 & H3 & _). repeat split; auto. Qed.
End With_R.

Context (ab : halt -> Prop).
Lemma entry_ok m r c P Q i j : matP m r c P -> i < r -> j < c -> (forall o, P i j o -> holds Q o) -> ret ab (entry m i j) Q.
Proof.
  intros [(Dr & Dc & L) H] Hi Hj HP. destruct (H i j Hi Hj) as (o & E & Ho). destruct (HP o Ho) as (x & -> & Hx).
  left. exists x. unfold entry, read, offset. rewrite Dc, E. auto.
Qed.
Lemma entry_of {A} (R : T -> A -> Prop) m r c g i j : mat_of R m r c g -> i < r -> j < c -> ret ab (entry m i j) (fun x => R x (g i j)).
Proof. intros H Hi Hj. apply mat_of_P in H. eapply entry_ok; eauto. Qed.
Lemma set_ok m r c (P Q : nat -> nat -> option T -> Prop) i j x : matP m r c P -> i < r -> j < c -> Q i j (Some x) ->
  (forall i' j' o, i' < r -> j' < c -> (i', j') <> (i, j) -> P i' j' o -> Q i' j' o) ->
  sret ab (set_entry m i j x) (fun m' => matP m' r c Q).
Proof.
  intros [(Dr & Dc & L) H] Hi Hj Hx HQ. unfold set_entry, offset. rewrite Dc.
  pose proof (offset_lt r c i j Hi Hj) as Hlt. destruct (Nat.ltb_spec (i * c + j) (length (data m))); [|lia].
  apply sret_done. split; [repeat split; cbn; auto; rewrite length_replace; auto|]. cbn [data]. intros i' j' Hi' Hj'.
  destruct (Nat.eq_dec (i' * c + j') (i * c + j)) as [E|N].
  - destruct (offset_inj c i' j' i j) as [-> ->]; auto. exists (Some x). rewrite nth_replace_eq by lia. auto.
  - rewrite nth_replace_ne by auto. destruct (H i' j' Hi' Hj') as (o & Eo & Ho). exists o. split; auto. apply HQ; auto. congruence.
Qed.
Lemma assign_ok (op : T -> option T -> res T) m r c (P Q : nat -> nat -> option T -> Prop) i j y : matP m r c P -> i < r -> j < c ->
  (forall o, P i j o -> holds (fun e => ret ab (op e y) (fun z => Q i j (Some z))) o) ->
  (forall i' j' o, i' < r -> j' < c -> (i', j') <> (i, j) -> P i' j' o -> Q i' j' o) ->
  sret ab (assign_entry op m i j y) (fun m' => matP m' r c Q).
Proof.
  intros H Hi Hj Hop HQ. unfold assign_entry. eapply sret_eval.
  - eapply ret_bind; [eapply entry_ok; eauto; exact Hop|]. intros e He. exact He.
  - intros z Hz. eapply set_ok; eauto.
Qed.

(** loops over all entries *)
Lemma sret_for2 {S} (I : nat -> nat -> S -> Prop) r c body s :
  I 0 0 s -> (forall i j s, i < r -> j < c -> I i j s -> sret ab (body i j s) (I i (1 + j))) ->
  (forall i s, i < r -> I i c s -> I (1 + i) 0 s) ->
  sret ab (for2 r c body s) (I r 0).
Proof.
  intros H Hb Hn. unfold for2. apply (sret_for ab (fun i => I i 0) r 0); auto. intros i s' Hi H'.
  eapply sret_mono; [|intros s'' H''; apply Hn; [lia|exact H'']].
  apply (sret_for ab (I i) c 0); auto. intros j s'' Hj H''. apply Hb; auto; lia.
Qed.
(** (a, b) comes before (i, j) *)
Definition before (i j a b : nat) : bool := (a <? i) || ((a =? i) && (b <? j)).
Lemma before_0 a b : before 0 0 a b = false.
Proof. unfold before. destruct (Nat.ltb_spec a 0), (Nat.ltb_spec b 0); lia. Qed.
Lemma before_row i c a b : b < c -> before i c a b = before (1 + i) 0 a b.
Proof.
  intros. unfold before. destruct (Nat.ltb_spec a i), (Nat.eqb_spec a i), (Nat.ltb_spec b c), (Nat.ltb_spec a (1 + i)), (Nat.eqb_spec a (1 + i)),
    (Nat.ltb_spec b 0); cbn; auto; lia.
Qed.
Lemma before_all r c a b : a < r -> before r c a b = true.
Proof. intros. unfold before. destruct (Nat.ltb_spec a r); auto; lia. Qed.
Lemma before_self i j : before i j i j = false.
Proof. unfold before. rewrite !Nat.ltb_irrefl, andb_false_r. reflexivity. Qed.
Lemma before_new i j : before i (1 + j) i j = true.
Proof. unfold before. rewrite Nat.eqb_refl, Nat.ltb_irrefl. destruct (Nat.ltb_spec j (1 + j)); auto; lia. Qed.
Lemma before_other i j a b : (a, b) <> (i, j) -> before i (1 + j) a b = before i j a b.
Proof.
  intros. unfold before. destruct (Nat.ltb_spec a i), (Nat.eqb_spec a i), (Nat.ltb_spec b (1 + j)), (Nat.ltb_spec b j); cbn; auto; try lia.
  exfalso. apply H. f_equal; lia.
Qed.

(** each entry is replaced once, in order, by something computed from a matrix
    whose earlier entries satisfy Q and whose later entries satisfy P *)
Definition mixed (P Q : nat -> nat -> option T -> Prop) (i j : nat) (a b : nat) (o : option T) : Prop :=
  if before i j a b then Q a b o else P a b o.
Lemma each_ok body m r c (P Q : nat -> nat -> option T -> Prop) : matP m r c P ->
  (forall i j d, i < r -> j < c -> matP d r c (mixed P Q i j) -> sret ab (body i j d) (fun d' => matP d' r c (mixed P Q i (1 + j)))) ->
  sret ab (for2 r c body m) (fun d => matP d r c Q).
Proof.
  intros H Hb. eapply sret_mono.
  - apply (sret_for2 (fun i j d => matP d r c (mixed P Q i j))); auto.
    + eapply matP_mono; eauto. intros i j o Hi Hj Ho. unfold mixed. rewrite before_0. exact Ho.
    + intros i d Hi Hd. eapply matP_mono; eauto. intros a b o Ha Hb' Ho. unfold mixed in *. rewrite <- before_row with (c := c); auto.
  - intros d Hd. eapply matP_mono; [exact Hd|]. intros a b o Ha Hb' Ho. unfold mixed in *. rewrite before_all in Ho; auto.
Qed.
Lemma each_of {A} (R R' : T -> A -> Prop) body m r c g h : mat_of R m r c g ->
  (forall i j d, i < r -> j < c ->
    matP d r c (mixed (fun i j => holds (fun x => R x (g i j))) (fun i j => holds (fun x => R' x (h i j))) i j) ->
    sret ab (body i j d) (fun d' =>
    matP d' r c (mixed (fun i j => holds (fun x => R x (g i j))) (fun i j => holds (fun x => R' x (h i j))) i (1 + j)))) ->
  sret ab (for2 r c body m) (fun d => mat_of R' d r c h).
Proof.
  intros H Hb. apply mat_of_P in H. eapply sret_mono; [eapply each_ok; [exact H|exact Hb]|].
  intros d Hd. apply mat_of_P. exact Hd.
Qed.
Lemma fill_ok f m r c (Q : nat -> nat -> T -> Prop) : dims m r c ->
  (forall i j, i < r -> j < c -> ret ab (f i j) (Q i j)) ->
  sret ab (fill r c f m) (fun d => matP d r c (fun i j => holds (Q i j))).
Proof.
  intros D Hf. unfold fill. eapply each_ok; [apply matP_any, D|]. intros i j d Hi Hj Hd. eapply sret_eval; [apply Hf; auto|]. intros x Hx.
  eapply set_ok; eauto.
  - unfold mixed. rewrite before_new. exists x. auto.
  - intros i' j' o Hi' Hj' N. unfold mixed. rewrite before_other by auto. auto.
Qed.
Lemma fill_of {A} (R : T -> A -> Prop) f m r c g : dims m r c ->
  (forall i j, i < r -> j < c -> ret ab (f i j) (fun x => R x (g i j))) ->
  sret ab (fill r c f m) (fun d => mat_of R d r c g).
Proof. intros D Hf. eapply sret_mono; [apply (fill_ok f m r c (fun i j x => R x (g i j))); auto|]. intros d H. apply mat_of_P, H. Qed.
Lemma fill_new {A} (E : ops T) (R : T -> A -> Prop) f r c g :
  (forall i j, i < r -> j < c -> ret ab (f i j) (fun x => R x (g i j))) ->
  ret ab (final (fill r c f (Mat_new E r c))) (fun d => mat_of R d r c g).
Proof. intros. apply ret_final, fill_of; auto. apply dims_new. Qed.
End Mats.

Section Ops.
Context {T A : Type} (E : ops T) (ab : halt -> Prop) (R : T -> A -> Prop).

(** *** Constructors *)
Lemma Mat_val_ok r c v a : R v a -> ret ab (Mat_val E r c v) (fun m => mat_of R m r c (fun _ _ => a)).
Proof. intros H. apply (fill_new ab E R (fun _ _ => Ok v) r c). intros. apply ret_ok, H. Qed.
Lemma setEntries_ptr_ok m vals size r c g : dims m r c -> r * c <= size ->
  (forall i j, i < r -> j < c -> ret ab (read vals (i * c + j)) (fun x => R x (g i j))) ->
  sret ab (setEntries_ptr m vals size) (fun d => mat_of R d r c g).
Proof.
  intros D Hs Hv. unfold setEntries_ptr. destruct D as (Dr & Dc & L). rewrite Dr, Dc.
  destruct (Nat.ltb_spec size (r * c)); [lia|]. apply fill_of; [repeat split; auto|]. intros i j Hi Hj. unfold offset. rewrite Dc. auto.
Qed.
Lemma Mat_array_ok vals r c g : (forall i j, i < r -> j < c -> ret ab (read vals (i * c + j)) (fun x => R x (g i j))) ->
  ret ab (Mat_array E vals r c) (fun d => mat_of R d r c g).
Proof. intros. apply ret_final, setEntries_ptr_ok; auto. apply dims_new. Qed.
Lemma Mat_copy_ok m r c g : mat_of R m r c g -> ret ab (Mat_copy E m) (fun d => mat_of R d r c g).
Proof.
  intros (Dr & Dc & L & H). unfold Mat_copy. rewrite Dr, Dc. apply ret_final, setEntries_ptr_ok; auto; [apply dims_new|].
  intros i j Hi Hj. destruct (H i j Hi Hj) as (x & Ex & Hx). left. exists x. unfold read. rewrite Ex. auto.
Qed.

(** *** Element-wise *)
Lemma same_dims_spec (a b : Mat T) r c r' c' : dims a r c -> dims b r' c' ->
  same_dims a b = true <-> r = r' /\ c = c'.
Proof.
  intros (Ar & Ac & _) (Br & Bc & _). unfold same_dims. rewrite Ar, Ac, Br, Bc, andb_true_iff, !Nat.eqb_eq. tauto.
Qed.
Lemma same_dims_yes (a b : Mat T) r c : dims a r c -> dims b r c -> same_dims a b = true.
Proof. intros Ha Hb. apply (same_dims_spec a b r c r c); auto. Qed.
Lemma same_dims_no (a b : Mat T) r c r' c' : dims a r c -> dims b r' c' -> (r, c) <> (r', c') -> same_dims a b = false.
Proof.
  intros Ha Hb N. pose proof (same_dims_spec a b r c r' c' Ha Hb). destruct (same_dims a b); auto.
  destruct H as [H _]. destruct H as [-> ->]; auto. congruence.
Qed.

Lemma M_neg_ok (fneg : A -> A) m r c g : (forall x a, R x a -> ret ab (neg E x) (fun z => R z (fneg a))) ->
  mat_of R m r c g -> ret ab (M_neg E m) (fun d => mat_of R d r c (fun i j => fneg (g i j))).
Proof.
  intros Hn Hm. unfold M_neg. destruct (mat_of_dims R m r c g Hm) as (-> & -> & _). apply fill_new. intros i j Hi Hj.
  eapply ret_bind; [apply (entry_of ab R m r c g i j); auto|]. intros x Hx. apply Hn, Hx.
Qed.
Lemma mat_binary_ok op f a b r c g h : binary_exact ab R op f -> mat_of R a r c g -> mat_of R b r c h ->
  ret ab (mat_binary E op a b) (fun d => mat_of R d r c (fun i j => f (g i j) (h i j))).
Proof.
  intros Hop Ha Hb. unfold mat_binary. pose proof (mat_of_dims _ _ _ _ _ Ha) as Da. pose proof (mat_of_dims _ _ _ _ _ Hb) as Db.
  rewrite (same_dims_yes a b r c Da Db). cbn [negb]. destruct Da as (-> & -> & _). apply fill_new. intros i j Hi Hj.
  eapply ret_bind; [apply (entry_of ab R a r c g i j); auto|]. intros x Hx.
  eapply ret_bind; [apply (entry_of ab R b r c h i j); auto|]. intros y Hy. apply Hop; [exact Hx|exact Hy].
Qed.
Lemma mat_binary_bad op (a b : Mat T) r c r' c' : dims a r c -> dims b r' c' -> (r, c) <> (r', c') -> mat_binary E op a b = Throw DomainError.
Proof. intros Da Db N. unfold mat_binary. rewrite (same_dims_no a b r c r' c'); auto. Qed.
Lemma M_scale_ok f s m r c g b : binary_exact ab R (mul E) f -> R s b -> mat_of R m r c g ->
  ret ab (M_scale E s m) (fun d => mat_of R d r c (fun i j => f b (g i j))).
Proof.
  intros Hop Hs Hm. unfold M_scale. destruct (mat_of_dims R m r c g Hm) as (-> & -> & _). apply fill_new. intros i j Hi Hj.
  eapply ret_bind; [apply (entry_of ab R m r c g i j); auto|]. intros x Hx. apply Hop; auto.
Qed.
Lemma M_div_ok (f : A -> A -> A) s m r c g b : (forall x a, R x a -> ret ab (div E x s) (fun z => R z (f a b))) -> mat_of R m r c g ->
  ret ab (M_div E m s) (fun d => mat_of R d r c (fun i j => f (g i j) b)).
Proof.
  intros Hop Hm. unfold M_div. destruct (mat_of_dims R m r c g Hm) as (-> & -> & _). apply fill_new. intros i j Hi Hj.
  eapply ret_bind; [apply (entry_of ab R m r c g i j); auto|]. intros x Hx. apply Hop; auto.
Qed.

Lemma mat_assign_pt (R' : T -> A -> Prop) op f a b r c g h :
  (forall i j x y, i < r -> j < c -> R x (g i j) -> R y (h i j) -> ret ab (op x (Some y)) (fun z => R' z (f (g i j) (h i j)))) -> mat_of R a r c g ->
  match b with None => forall i j, i < r -> j < c -> h i j = g i j | Some b => mat_of R b r c h end ->
  sret ab (mat_assign op a b) (fun d => mat_of R' d r c (fun i j => f (g i j) (h i j))).
Proof.
  intros Hop Ha Hb. unfold mat_assign. pose proof (mat_of_dims _ _ _ _ _ Ha) as Da.
  assert (Db : dims (rd a b) r c) by (destruct b; cbn; [eapply mat_of_dims; eauto|auto]).
  rewrite (same_dims_yes a _ r c Da Db). cbn [negb]. destruct Da as (-> & -> & _).
  eapply each_of; [exact Ha|].
  intros i j d Hi Hj Hd. eapply (sret_eval ab d _ _ (fun y => R y (h i j))).
  - destruct b as [b|]; cbn [rd].
    + apply (entry_of ab R b r c h i j); auto.
    + eapply entry_ok; [exact Hd|auto|auto|]. intros o. unfold mixed. rewrite before_self. rewrite Hb by auto. auto.
  - intros y Hy. eapply assign_ok; [exact Hd|auto|auto| |].
    + intros o. unfold mixed. rewrite before_self, before_new. intros (e & -> & He). exists e. split; auto.
      eapply ret_mono; [apply Hop; eauto|]. intros z Hz. exists z. auto.
    + intros i' j' o _ _ N. unfold mixed. rewrite before_other by auto. auto.
Qed.
Lemma mat_assign_ok (R' : T -> A -> Prop) op f a b r c g h : assign_exact ab R R R' op f -> mat_of R a r c g ->
  match b with None => forall i j, i < r -> j < c -> h i j = g i j | Some b => mat_of R b r c h end ->
  sret ab (mat_assign op a b) (fun d => mat_of R' d r c (fun i j => f (g i j) (h i j))).
Proof. intros [Hop _]. apply mat_assign_pt. auto. Qed.
Lemma mat_assign_bad op (a : Mat T) b r c r' c' : dims a r c -> dims (rd a b) r' c' -> (r, c) <> (r', c') ->
  mat_assign op a b = (a, Throw DomainError).
Proof. intros Da Db N. unfold mat_assign. rewrite (same_dims_no a _ r c r' c'); auto. Qed.
Lemma mat_scale_val_pt (R' : T -> A -> Prop) op (f : A -> A -> A) m s r c g b :
  (forall i j x, i < r -> j < c -> R x (g i j) -> ret ab (op x (Some s)) (fun z => R' z (f (g i j) b))) -> mat_of R m r c g ->
  sret ab (mat_scale_assign op m (MVal s)) (fun d => mat_of R' d r c (fun i j => f (g i j) b)).
Proof.
  intros Hop Hm. unfold mat_scale_assign. destruct (mat_of_dims R m r c g Hm) as (-> & -> & _).
  eapply each_of; [exact Hm|].
  intros i j d Hi Hj Hd. eapply assign_ok; [exact Hd|auto|auto| |].
  - intros o. unfold mixed. rewrite before_self, before_new. intros (e & -> & He). exists e. split; auto.
    eapply ret_mono; [apply Hop; eauto|]. intros z Hz. exists z. auto.
  - intros i' j' o _ _ N. unfold mixed. rewrite before_other by auto. auto.
Qed.
Lemma mat_scale_val_ok (S R' : T -> A -> Prop) op f m s r c g b : assign_exact ab R S R' op f -> mat_of R m r c g -> S s b ->
  sret ab (mat_scale_assign op m (MVal s)) (fun d => mat_of R' d r c (fun i j => f (g i j) b)).
Proof. intros [Hop _] Hm Hs. apply mat_scale_val_pt; auto. Qed.
(** by the (p, q) entry: later entries see its new value *)
Lemma mat_scale_elem_ok (S R' : T -> A -> Prop) op f m p q r c g : assign_exact ab R S R' op f -> mat_of R m r c g -> p < r -> q < c ->
  (forall e, R e (g p q) -> S e (g p q)) -> (forall e, R' e (f (g p q) (g p q)) -> S e (f (g p q) (g p q))) ->
  sret ab (mat_scale_assign op m (MElem p q))
    (fun d => mat_of R' d r c (fun i j => f (g i j) (if before i j p q then f (g p q) (g p q) else g p q))).
Proof.
  intros [Hop Hself] Hm Hp Hq S1 S2. unfold mat_scale_assign. destruct (mat_of_dims R m r c g Hm) as (-> & -> & _).
  set (h := fun i j => f (g i j) (if before i j p q then f (g p q) (g p q) else g p q)).
  apply (each_of ab R R' _ m r c g h Hm).
  intros i j d Hi Hj Hd. destruct ((i =? p) && (j =? q)) eqn:Eq.
  - apply andb_prop in Eq as [Ei Ej]. apply Nat.eqb_eq in Ei, Ej. subst i j.
    eapply assign_ok; [exact Hd|auto|auto| |].
    + intros o. unfold mixed. rewrite before_self, before_new. intros (e & -> & He). exists e. split; auto.
      eapply ret_mono; [apply Hself; eauto|]. intros z Hz. exists z. split; auto. unfold h. rewrite before_self. exact Hz.
    + intros i' j' o _ _ N. unfold mixed. rewrite before_other by auto. auto.
  - assert (N : (p, q) <> (i, j)) by (intros [= -> ->]; rewrite !Nat.eqb_refl in Eq; discriminate).
    eapply (sret_eval ab d _ _ (fun e => S e (if before i j p q then f (g p q) (g p q) else g p q))).
    + eapply entry_ok; [exact Hd|auto|auto|]. intros o. unfold mixed. destruct (before i j p q) eqn:B.
      * intros (e & -> & He). exists e. split; auto. unfold h in He. rewrite before_self in He. auto.
      * intros (e & -> & He). exists e. auto.
    + intros a Ha. eapply assign_ok; [exact Hd|auto|auto| |].
      * intros o. unfold mixed. rewrite before_self, before_new. intros (e & -> & He). exists e. split; auto.
        eapply ret_mono; [apply Hop; eauto|]. intros z Hz. exists z. auto.
      * intros i' j' o _ _ N'. unfold mixed. rewrite before_other by auto. auto.
Qed.

(** *** Product *)
Lemma M_product_pt (I : nat -> nat -> nat -> T -> Prop) (Q : nat -> nat -> nat -> T -> Prop) a b n m p g h :
  (forall i j, i < n -> j < p -> I 0 i j (of_int E 0)) ->
  (forall i k j x y, i < n -> k < m -> j < p -> R x (g i k) -> R y (h k j) -> ret ab (mul E x y) (Q i k j)) ->
  (forall i k j q e, i < n -> k < m -> j < p -> Q i k j q -> I k i j e -> ret ab (addA E e (Some q)) (I (1 + k) i j)) ->
  mat_of R a n m g -> mat_of R b m p h ->
  ret ab (M_product E a b) (fun d => matP d n p (fun i j => holds (I m i j))).
Proof.
  intros H0 Hmul Hadd Ha Hb. unfold M_product.
  destruct (mat_of_dims R a n m g Ha) as (-> & -> & _). destruct (mat_of_dims R b m p h Hb) as (-> & -> & _).
  rewrite Nat.eqb_refl. cbn [negb]. unfold Mat_val.
  eapply ret_bind.
  { apply ret_final. unfold mat_setEntries_val. destruct (dims_new E n p) as (-> & -> & _).
    apply (fill_ok ab (fun _ _ => Ok (of_int E 0)) _ n p (I 0)); [apply dims_new|]. intros i j Hi Hj. apply ret_ok, H0; auto. }
  intros r0 Hr0. cbn beta in Hr0. apply ret_final.
  eapply sret_mono.
  - apply (sret_for ab (fun i d => matP d n p (fun a b => holds (I (if a <? i then m else 0) a b))) n 0).
    + exact Hr0.
    + intros i d Hi Hd.
      eapply sret_mono.
      * apply (sret_for ab (fun k d => matP d n p (fun a b => holds (I (if a <? i then m else if a =? i then k else 0) a b))) m 0).
        { eapply matP_mono; [exact Hd|]. intros a' b' o _ _. cbn beta. destruct (a' <? i); auto. destruct (a' =? i); auto. }
        intros k d' Hk Hd'.
        eapply sret_mono.
        -- apply (sret_for ab (fun j d => matP d n p (fun a b => holds (I (if a <? i then m else if a =? i then
              (if b <? j then 1 + k else k) else 0) a b))) p 0).
           { exact Hd'. }
           intros j d'' Hj Hd''. eapply (sret_eval ab d'' _ _ (Q i k j)).
           ++ eapply ret_bind; [apply (entry_of ab R a n m g i k); auto; lia|]. intros x Hx.
              eapply ret_bind; [apply (entry_of ab R b m p h k j); auto; lia|]. intros y Hy. apply Hmul; auto; lia.
           ++ intros q Hq. eapply assign_ok; [exact Hd''|lia|lia| |].
              ** intros o (e & -> & He). exists e. split; auto. rewrite Nat.ltb_irrefl, Nat.eqb_refl, Nat.ltb_irrefl in He.
                 eapply ret_mono; [apply (Hadd i k j); auto; lia|]. intros z Hz. exists z. split; auto.
                 rewrite Nat.ltb_irrefl, Nat.eqb_refl. destruct (Nat.ltb_spec j (1 + j)); [|lia]. exact Hz.
              ** intros i' j' o _ _ N (e & -> & He). exists e. split; auto.
                 destruct (Nat.ltb_spec i' i); auto. destruct (Nat.eqb_spec i' i); auto.
                 destruct (Nat.ltb_spec j' (1 + j)), (Nat.ltb_spec j' j); auto; try lia.
                 exfalso. apply N. f_equal; lia.
        -- intros e He. eapply matP_mono; [exact He|]. intros a' b' o _ Hb'. cbn beta. destruct (a' <? i); auto. destruct (a' =? i); auto.
           destruct (Nat.ltb_spec b' (0 + p)); [auto|lia].
      * intros e He. eapply matP_mono; [exact He|]. intros a' b' o _ Hb'. cbn beta.
        destruct (Nat.ltb_spec a' i), (Nat.ltb_spec a' (1 + i)), (Nat.eqb_spec a' i); auto; lia.
  - intros e He. eapply matP_mono; [exact He|]. intros a' b' o Ha' _. cbn beta. destruct (Nat.ltb_spec a' (0 + n)); [auto|lia].
Qed.
Section Product.
Context (zero : A) (fadd fmul : A -> A -> A).
Hypotheses (H0 : R (of_int E 0) zero) (Hadd : assign_exact ab R R R (addA E) fadd) (Hmul : binary_exact ab R (mul E) fmul).
Lemma M_product_ok a b n m p g h : mat_of R a n m g -> mat_of R b m p h ->
  ret ab (M_product E a b) (fun d => mat_of R d n p (fun i j => sum_to zero fadd m (fun k => fmul (g i k) (h k j)))).
Proof.
  intros Ha Hb. eapply ret_mono; [apply (M_product_pt (fun k i j x => R x (sum_to zero fadd k (fun k => fmul (g i k) (h k j))))
    (fun i k j x => R x (fmul (g i k) (h k j))) a b n m p g h)|]; auto.
  - intros i k j q e _ _ _ Hq He. cbn [Nat.add sum_to]. apply Hadd; auto.
  - intros d Hd. apply mat_of_P. exact Hd.
Qed.
Lemma M_product_bad (a b : Mat T) r c r' c' : dims a r c -> dims b r' c' -> c <> r' -> M_product E a b = Throw DomainError.
Proof. intros (_ & Ac & _) (Br & _) N. unfold M_product. rewrite Ac, Br. apply Nat.eqb_neq in N. rewrite N. reflexivity. Qed.

Lemma trace_ok m n g : mat_of R m n n g -> ret ab (trace E m) (fun t => R t (sum_to zero fadd n (fun i => g i i))).
Proof.
  intros Hm. unfold trace. destruct (mat_of_dims R m n n g Hm) as (-> & -> & _). rewrite Nat.eqb_refl. cbn [negb]. apply ret_final.
  apply (sret_for ab (fun i t => R t (sum_to zero fadd i (fun i => g i i))) n 0); [exact H0|].
  intros i t Hi Ht. eapply sret_eval; [|intros x Hx; apply sret_done; exact Hx].
  eapply ret_bind; [apply (entry_of ab R m n n g i i); auto; lia|]. intros x Hx. apply Hadd; auto.
Qed.
End Product.

Lemma transpose_ok m r c g : mat_of R m r c g -> ret ab (transpose E m) (fun d => mat_of R d c r (fun i j => g j i)).
Proof.
  intros Hm. unfold transpose. destruct (mat_of_dims R m r c g Hm) as (-> & -> & _). apply ret_final.
  eapply sret_mono.
  - apply (sret_for2 ab (fun i j d => matP d c r (fun a b o => before i j b a = true -> holds (fun x => R x (g b a)) o))).
    + eapply matP_mono; [apply matP_any, dims_new|]. intros a b o _ _ _. rewrite before_0. discriminate.
    + intros i j d Hi Hj Hd. eapply sret_eval; [apply (entry_of ab R m r c g i j); auto|]. intros x Hx. cbn beta in Hx.
      eapply set_ok; [exact Hd|auto|auto| |].
      * intros _. exists x. auto.
      * intros i' j' o _ _ N Ho. rewrite before_other; auto. congruence.
    + intros i d Hi Hd. eapply matP_mono; [exact Hd|]. intros a b o Ha Hb Ho Hbf. apply Ho. rewrite before_row; auto.
  - intros d Hd. apply mat_of_P. eapply matP_mono; [exact Hd|]. intros a b o Ha Hb Ho. apply Ho. apply before_all. auto.
Qed.

(** *** Equality *)
Lemma all_ok n : forall a (p : nat -> res bool) (P : nat -> Prop), (forall i, a <= i < a + n -> ret ab (p i) (fun b => b = true <-> P i)) ->
  ret ab (all_ n a p) (fun b => b = true <-> forall i, a <= i < a + n -> P i).
Proof.
  induction n as [|n IH]; intros a p P H; cbn [all_].
  - apply ret_ok. split; auto. intros _ i Hi. lia.
  - eapply ret_bind; [apply H; lia|]. intros b Hb. cbn beta in Hb. destruct b.
    + eapply ret_mono; [apply (IH (S a) p P); intros i Hi; apply H; lia|]. intros b' ->. split.
      * intros HH i Hi. destruct (Nat.eq_dec i a) as [->|]; [tauto|apply HH; lia].
      * intros HH i Hi. apply HH. lia.
    + apply ret_ok. split; [discriminate|]. intros HH. apply Hb. apply HH. lia.
Qed.
Lemma M_eq_ok (eqA : A -> A -> Prop) a b r c g h :
  (forall x y u v, R x u -> R y v -> ret ab (eqb E x y) (fun e => e = true <-> eqA u v)) ->
  mat_of R a r c g -> mat_of R b r c h ->
  ret ab (M_eq E a b) (fun e => e = true <-> forall i j, i < r -> j < c -> eqA (g i j) (h i j)).
Proof.
  intros He Ha Hb. unfold M_eq. rewrite (same_dims_yes a b r c (mat_of_dims _ _ _ _ _ Ha) (mat_of_dims _ _ _ _ _ Hb)). cbn [negb].
  destruct (mat_of_dims _ _ _ _ _ Ha) as (-> & -> & _).
  eapply ret_mono.
  - apply (all_ok r 0 _ (fun i => forall j, 0 <= j < 0 + c -> eqA (g i j) (h i j))). intros i Hi.
    apply (all_ok c 0 _ (fun j => eqA (g i j) (h i j))). intros j Hj.
    eapply ret_bind; [apply (entry_of ab R a r c g i j); auto; lia|]. intros x Hx.
    eapply ret_bind; [apply (entry_of ab R b r c h i j); auto; lia|]. intros y Hy. apply He; [exact Hx|exact Hy].
  - intros e ->. split; intros H; intros; apply H; lia.
Qed.
Lemma M_eq_bad (a b : Mat T) r c r' c' : dims a r c -> dims b r' c' -> (r, c) <> (r', c') -> M_eq E a b = Ok false.
Proof. intros Da Db N. unfold M_eq. rewrite (same_dims_no a b r c r' c'); auto. Qed.

(** *** Minors *)
Lemma skip_lt i n k : k < n - 1 -> skip i k < n.
Proof. unfold skip. destruct (i <=? k); lia. Qed.
Lemma first_minor_ok m r c g i j : mat_of R m r c g -> 0 < r -> 0 < c ->
  ret ab (first_minor E m i j) (fun d => mat_of R d (r - 1) (c - 1) (fun a b => g (skip i a) (skip j b))).
Proof.
  intros Hm Hr Hc. unfold first_minor. destruct (mat_of_dims R m r c g Hm) as (-> & -> & _).
  destruct (Nat.eqb_spec r 0), (Nat.eqb_spec c 0); try lia. cbn [orb].
  apply fill_new. intros a b Ha Hb. apply (entry_of ab R m r c g); auto; apply skip_lt; auto.
Qed.

(** *** diagonal, identity, augmented *)
Lemma diag_loop (f : nat -> res T) zero one m n : mat_of R m n n (fun _ _ => zero) ->
  (forall i, i < n -> ret ab (f i) (fun x => R x (one i))) ->
  sret ab (for_ n 0 (fun i d => eval d (f i) (fun x => set_entry d i i x)) m)
    (fun d => mat_of R d n n (fun i j => if i =? j then one i else zero)).
Proof.
  intros Hm Hf. eapply sret_mono.
  - apply (sret_for ab (fun k d => mat_of R d n n (fun i j => if (i =? j) && (i <? k) then one i else zero)) n 0).
    + eapply mat_of_ext; [exact Hm|]. intros i j _ _. cbn beta. rewrite andb_false_r. reflexivity.
    + intros k d Hk Hd. eapply sret_eval; [apply Hf; lia|]. intros x Hx. eapply sret_mono; [|intros d' Hd'; apply mat_of_P; exact Hd'].
      apply mat_of_P in Hd. eapply set_ok; [exact Hd|lia|lia| |].
      * exists x. split; auto. rewrite Nat.eqb_refl. destruct (Nat.ltb_spec k (1 + k)); [|lia]. exact Hx.
      * intros i j o _ _ N (e & -> & He). exists e. split; auto. destruct (Nat.eqb_spec i j); auto. cbn [andb] in *.
        destruct (Nat.ltb_spec i (1 + k)), (Nat.ltb_spec i k); auto; try lia. exfalso. apply N. f_equal; lia.
  - intros d Hd. eapply mat_of_ext; [exact Hd|]. intros i j Hi _. cbn beta. destruct (Nat.ltb_spec i (0 + n)); [|lia]. rewrite andb_true_r. reflexivity.
Qed.
Lemma diagonalMatrix_ok vals n zero one : R (of_int E 0) zero -> (forall i, i < n -> ret ab (read vals i) (fun x => R x (one i))) ->
  ret ab (diagonalMatrix E vals n) (fun d => mat_of R d n n (fun i j => if i =? j then one i else zero)).
Proof.
  intros H0 Hv. unfold diagonalMatrix. eapply ret_bind; [apply Mat_val_ok; exact H0|]. intros m Hm. apply ret_final, diag_loop; auto.
Qed.
Lemma identityMatrix_ok n zero one : R (of_int E 0) zero -> R (of_int E 1) one ->
  ret ab (identityMatrix E n) (fun d => mat_of R d n n (fun i j => if i =? j then one else zero)).
Proof.
  intros H0 H1. unfold identityMatrix. eapply ret_bind; [apply Mat_val_ok; exact H0|]. intros m Hm. apply ret_final.
  apply (diag_loop (fun _ => Ok (of_int E 1)) zero (fun _ => one)); auto. intros. apply ret_ok, H1.
Qed.
Lemma augmentedMatrix_ok a b n c d g h : mat_of R a n c g -> mat_of R b n d h ->
  ret ab (augmentedMatrix E a b) (fun m => mat_of R m n (c + d) (fun i j => if j <? c then g i j else h i (j - c))).
Proof.
  intros Ha Hb. unfold augmentedMatrix. destruct (mat_of_dims R a n c g Ha) as (-> & -> & _). destruct (mat_of_dims R b n d h Hb) as (-> & -> & _).
  rewrite Nat.eqb_refl. cbn [negb]. apply ret_final. set (u := fun i j => if j <? c then g i j else h i (j - c)).
  eapply sret_mono.
  - apply (sret_for ab (fun i m => matP m n (c + d) (fun a b o => a < i -> holds (fun x => R x (u a b)) o)) n 0).
    + eapply matP_mono; [apply matP_any, dims_new|]. intros. lia.
    + intros i m Hi Hm.
      eapply (sret_andthen ab _ _ (fun m => matP m n (c + d) (fun a b o => a < i \/ (a = i /\ b < c) -> holds (fun x => R x (u a b)) o))).
      * eapply sret_mono; [apply (sret_for ab (fun j m => matP m n (c + d) (fun a b o => a < i \/ (a = i /\ b < j) -> holds (fun x => R x (u a b)) o)) c 0)|].
        -- eapply matP_mono; [exact Hm|]. intros a' b' o _ _ Ho [H|H]; [auto|lia].
        -- intros j m' Hj Hm'. eapply sret_eval; [apply (entry_of ab R a n c g i j); auto; lia|]. intros x Hx.
           eapply set_ok; [exact Hm'|lia|lia| |].
           ++ intros _. exists x. split; auto. unfold u. destruct (Nat.ltb_spec j c); [exact Hx|lia].
           ++ intros i' j' o _ _ N Ho [H|[-> H]]; [auto|]. apply Ho. right. split; auto. assert (j' <> j) by congruence. lia.
        -- auto.
      * intros m' Hm'. eapply sret_mono; [apply (sret_for ab (fun j m => matP m n (c + d) (fun a b o => a < i \/ (a = i /\ b < c + j) -> holds (fun x => R x (u a b)) o)) d 0)|].
        -- eapply matP_mono; [exact Hm'|]. intros a' b' o _ _ Ho [H|[-> H]]; apply Ho; [auto|right; split; [auto|lia]].
        -- intros j m'' Hj Hm''. eapply sret_eval; [apply (entry_of ab R b n d h i j); auto; lia|]. intros x Hx.
           eapply set_ok; [exact Hm''|lia|lia| |].
           ++ intros _. exists x. split; auto. unfold u. destruct (Nat.ltb_spec (j + c) c); [lia|]. replace (j + c - c) with j by lia. exact Hx.
           ++ intros i' j' o _ _ N Ho [H|[-> H]]; [auto|]. apply Ho. right. split; auto. assert (j' <> j + c) by congruence. lia.
        -- intros m'' Hm2. eapply matP_mono; [exact Hm2|]. intros a' b' o Ha' Hb' Ho H. apply Ho. lia.
  - intros m Hm. apply mat_of_P. eapply matP_mono; [exact Hm|]. intros. apply H1. lia.
Qed.
Lemma augmentedMatrix_bad (a b : Mat T) r c r' c' : dims a r c -> dims b r' c' -> r <> r' -> augmentedMatrix E a b = Throw DomainError.
Proof. intros (Ar & _) (Br & _) N. unfold augmentedMatrix. rewrite Ar, Br. apply Nat.eqb_neq in N. rewrite N. reflexivity. Qed.
End Ops.
